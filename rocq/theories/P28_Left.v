(** C68: the left-looking partial refactorisation (LDL_cache_numeric). *)
From Coq Require Import ZArith Reals List Lia Lra Bool.
From Verif Require Import Res Arith Lists MSparse Csc SemVec MLdl LdlSpec LdlSym LdlNum LdlSolve LdlR LdlFun
  TransposeProofs Flat Spec SpecLink P3_Ldl MInactive Cache P25_Cache P26_Reach Left Demo.
Import ListNotations.
Open Scope Z_scope.
Open Scope res_scope.

(** ** Statement *)

(** Column [j] has an entry in row [i]. *)
Definition occurs (Jc Ir : arr Z) (i j : Z) : Prop :=
  exists a b k, rd Jc j = Ok a /\ rd Jc (j + 1) = Ok b /\ a <= k < b /\ rd Ir k = Ok i.

Definition symmetric_pattern (n : Z) (Jc Ir : arr Z) : Prop :=
  forall i j, 0 <= i < n -> 0 <= j < n -> occurs Jc Ir i j -> occurs Jc Ir j i.

Definition symmetric_values {F} (n : Z) (Jc Ir : arr Z) (Pr : arr F) : Prop :=
  forall i j v, 0 <= i < n -> 0 <= j < n -> stored Jc Ir Pr i j v -> stored Jc Ir Pr j i v.

(** No position is stored twice. *)
Definition no_repeats (n : Z) (Jc Ir : arr Z) : Prop :=
  forall j a b k k' i, 0 <= j < n -> rd Jc j = Ok a -> rd Jc (j + 1) = Ok b -> a <= k < b -> a <= k' < b ->
    rd Ir k = Ok i -> rd Ir k' = Ok i -> k = k'.

(** The values of an unmarked step are the old ones: column [elim_index P k], rows eliminated from step k on. *)
Definition marks_cover_below {F} (U : arr Z) (n : Z) (Ap Ai : arr Z) (Ax Ax' : arr F) (P Pinv : option (arr Z)) : Prop :=
  forall k q a b r i, 0 <= k < n -> ~ marked U n k ->
    rd Ap (elim_index P k) = Ok a -> rd Ap (elim_index P k + 1) = Ok b -> a <= q < b ->
    rd Ai q = Ok r -> perm_get Pinv r = Ok i -> k <= i -> rd Ax' q = rd Ax q.

(** An unmarked step has a marked parent, or its column of the factor is followed by another entry. *)
Definition marks_stop (U Lp Parent : arr Z) (n : Z) : Prop :=
  forall k, 0 <= k < n -> ~ marked U n k ->
    (exists p, rd Parent k = Ok p /\ p <> -1 /\ marked U n p) \/ get 0 Lp (k + 1) < get 0 Lp n.

(** ** Proof *)

Section Unmarked.
Variable A : Arith.
Variables (n : Z) (c c' : cols (car A)) (Pf Qf par : Z -> Z).
Hypothesis Erows : forall k, brows Pf Qf c' k = brows Pf Qf c k.
Hypothesis HF : forest n par (brows Pf Qf c).

Lemma left_unmarked (fl : Z -> bool) Lv Dv Lv' Dv' :
  (forall k, 0 <= k < n -> LCol A n c Pf Qf par k Lv Dv) ->
  (forall k, 0 <= k < n -> LCol A n c' Pf Qf par k Lv' Dv') ->
  (forall i, 0 <= i < n -> fl i = true -> par i <> -1 -> fl (par i) = true) ->
  (forall k r, 0 <= k < n -> fl k = false -> k <= r < n -> a0 A c' Pf Qf k r = a0 A c Pf Qf k r) ->
  forall k, 0 <= k < n -> fl k = false ->
    Dv' k = Dv k /\ forall r, In r (lrows A n c Pf Qf par n k) -> Lv' r k = Lv r k.
Proof.
  intros H H' Hcl Ha.
  assert (G : forall m, 0 <= m -> m <= n -> forall k, 0 <= k < m -> fl k = false ->
    Dv' k = Dv k /\ forall r, In r (lrows A n c Pf Qf par n k) -> Lv' r k = Lv r k).
  2:{ intros k Hk. apply (G n); lia. }
  apply (zr_ind (fun m => m <= n -> forall k, 0 <= k < m -> fl k = false ->
    Dv' k = Dv k /\ forall r, In r (lrows A n c Pf Qf par n k) -> Lv' r k = Lv r k)).
  { intros; lia. }
  intros m Hm IH Hmn k Hk Fk. specialize (IH ltac:(lia)).
  destruct (Z.eq_dec k m) as [->|]; [|apply IH; auto; lia].
  destruct (H m ltac:(lia)) as [A1 A2]. destruct (H' m ltac:(lia)) as [B1 B2].
  rewrite (sl_same A n c c' Pf Qf par Erows) in B1, B2. rewrite (lrows_same A n c c' Pf Qf par Erows) in B2.
  assert (Hdown : forall x, In x (sl A n c Pf Qf par m) -> 0 <= x < m /\ fl x = false /\ In x (patlist n par (brows Pf Qf c m) m)).
  { intros x Hx. pose proof (sl_lt A n c Pf Qf par HF m x ltac:(lia) Hx) as Hxm.
    apply (in_sl A n c Pf Qf par HF) in Hx; [|lia]. split; [auto|]. split; auto. destruct (fl x) eqn:Fx; auto.
    rewrite (flag_up A n c Pf Qf par HF fl Hcl m x ltac:(lia) Hx Fx) in Fk. discriminate. }
  assert (EZ : forall r, m <= r < n -> zfold A n c' Pf Qf par Lv' Dv' m (sl A n c Pf Qf par m) r =
    zfold A n c Pf Qf par Lv Dv m (sl A n c Pf Qf par m) r).
  { intros r Hr. unfold zfold. rewrite Ha by (auto; lia). rewrite Erows. apply fold_left_ext_in. intros s x Hx.
    destruct (Hdown x Hx) as [Hxm [Fx Hin]]. destruct (IH x ltac:(lia) Fx) as [ED EL].
    destruct (inb x (patlist n par (brows Pf Qf c r) r)) eqn:E; auto. apply inb_true in E.
    rewrite ED, (EL r), (EL m); auto; apply in_lrows; split; auto; lia. }
  assert (ED : Dv' m = Dv m) by (rewrite A1, B1, EZ by lia; reflexivity).
  split; auto. intros r Hr. pose proof (A2 r Hr) as E1. pose proof (B2 r Hr) as E2.
  apply in_lrows in Hr. destruct Hr as [Hr Hin]. apply (pl_in A n c Pf Qf par HF) in Hin; [|lia].
  rewrite ED, EZ in E2 by lia. congruence.
Qed.

End Unmarked.

(** A row-oriented factor of a symmetric matrix satisfies the column relations. *)
Lemma NumSpec_LCol n (col : cols R) Pf Qf par y Lv Dv :
  forest n par (brows Pf Qf col) -> isperm n Pf Qf -> rows_in n n col ->
  NumSpec RA n col Pf Qf par y Lv Dv ->
  (forall k r, 0 <= k <= r -> r < n -> a0 RA col Pf Qf k r = Bmat col Pf Qf k r) ->
  forall k, 0 <= k < n -> LCol RA n col Pf Qf par k Lv Dv.
Proof.
  intros HF HP HR HN Hs k Hk.
  assert (Hin : forall i, In i (sl RA n col Pf Qf par k) <-> In i (patlist n par (brows Pf Qf col k) k))
    by (intros i; apply (in_sl RA n col Pf Qf par HF k i Hk)).
  assert (EZ : forall r, k <= r < n -> zfold RA n col Pf Qf par Lv Dv k (sl RA n col Pf Qf par k) r =
    (Bmat col Pf Qf k r - sumr (fun c => if inb c (patlist n par (brows Pf Qf col r) r) then Lv r c * (Lv k c * Dv c) else 0)
      (sl RA n col Pf Qf par k))%R).
  { intros r Hr. unfold zfold. cbn [car RA fsub fmul]. rewrite Hs by lia.
    apply (fold_sub_cond (fun c => inb c (patlist n par (brows Pf Qf col r) r)) (fun c => (Lv r c * (Lv k c * Dv c))%R)). }
  split.
  - rewrite EZ by lia. rewrite (rs_D _ _ _ _ _ _ _ _ _ _ (HN k Hk)). f_equal. unfold dfold. cbn [car RA fsub fmul].
    rewrite (fold_sub_all (fun j => (Lv k j * y k j)%R)), y0_R. f_equal.
    transitivity (sumr (fun j => (Lv k j * y k j)%R) (sl RA n col Pf Qf par k)).
    + apply sumr_perm. apply Permutation.NoDup_Permutation.
      * apply (pl_nodup RA n col Pf Qf par HF k Hk).
      * apply NoDup_sl.
      * intros x. symmetry. apply Hin.
    + apply sumr_ext. intros c Hc. apply Hin in Hc. pose proof Hc as Hc'. apply inb_true in Hc'. rewrite Hc'.
      rewrite (Lv_D n col Pf Qf par HF y Lv Dv HN k c Hk Hc). reflexivity.
  - intros r Hr. apply in_lrows in Hr. destruct Hr as [Hr Hkr].
    pose proof (pl_in RA n col Pf Qf par HF r k Hr Hkr) as Hlt.
    rewrite <- (rs_L _ _ _ _ _ _ _ _ _ _ (HN r Hr) k Hkr). f_equal. rewrite EZ by lia.
    pose proof (row_rel n col Pf Qf par HF HP HR y Lv Dv HN r k Hr ltac:(lia)) as ER.
    unfold Yv at 1 in ER. apply inb_true in Hkr. cbn [car RA] in *. rewrite Hkr in ER. rewrite <- ER.
    enough (EQ : sumr (fun c => if inb c (patlist n par (brows Pf Qf col r) r) then (Lv r c * (Lv k c * Dv c))%R else 0%R) (sl RA n col Pf Qf par k) =
      sumr (fun j => (LL n col Pf Qf par Lv k j * Yv n col Pf Qf par y r j)%R) (zr 0 k)) by (rewrite EQ; lra).
    rewrite (sumr_inb _ (sl RA n col Pf Qf par k) k).
    + apply sumr_ext. intros j Hj. apply in_zr in Hj.
      rewrite (Yv_LL n col Pf Qf par HF y Lv Dv HN r j Hr ltac:(lia)). unfold LL.
      destruct (Z.eqb_spec k j); [lia|]. destruct (Z.eqb_spec r j); [lia|].
      destruct (inb j (sl RA n col Pf Qf par k)) eqn:I1.
      * apply inb_true in I1. apply Hin in I1. apply inb_true in I1. rewrite I1.
        destruct (inb j (patlist n par (brows Pf Qf col r) r)); lra.
      * assert (I2 : inb j (patlist n par (brows Pf Qf col k) k) = false)
          by (apply inb_false; intros H; apply Hin in H; apply inb_true in H; congruence).
        rewrite I2. lra.
    + apply NoDup_sl.
    + intros x Hx. apply (sl_lt RA n col Pf Qf par HF); auto.
Qed.

(** The last value at a row, the sum at a row: the same when rows are distinct. *)
Lemma last_out (l : list (Z * R)) r : ~ In r (map fst l) ->
  forall acc, fold_left (fun acc e => if fst e =? r then snd e else acc) l acc = acc.
Proof.
  induction l as [|e l IH]; intros Hn acc; cbn [fold_left]; auto. cbn [map] in Hn.
  destruct (Z.eqb_spec (fst e) r) as [E|]; [exfalso; apply Hn; left; auto|]. apply IH. intros H. apply Hn. right. auto.
Qed.

Lemma last_in (l : list (Z * R)) r v : NoDup (map fst l) -> In (r, v) l ->
  forall acc, fold_left (fun acc e => if fst e =? r then snd e else acc) l acc = v.
Proof.
  induction l as [|e l IH]; intros ND Hin acc; [destruct Hin|]. cbn [map] in ND. apply NoDup_cons_iff in ND. destruct ND as [N1 N2].
  cbn [fold_left]. destruct Hin as [->|Hin].
  - cbn [fst snd]. rewrite Z.eqb_refl. apply last_out. exact N1.
  - apply IH; auto.
Qed.

Lemma ent_out (l : list (Z * R)) r : ~ In r (map fst l) -> ent l r = 0%R.
Proof.
  intros Hn. unfold ent. induction l as [|e l IH]; [reflexivity|]. cbn [map] in Hn. cbn [sumr map fold_right].
  destruct (Z.eqb_spec (fst e) r) as [E|]; [exfalso; apply Hn; left; auto|].
  unfold sumr in *. cbn. rewrite IH by (intros H; apply Hn; right; auto). destruct (Z.eqb_spec (fst e) r); [tauto|]. lra.
Qed.

Lemma ent_in (l : list (Z * R)) r v : NoDup (map fst l) -> In (r, v) l -> ent l r = v.
Proof.
  induction l as [|e l IH]; intros ND Hin; [destruct Hin|]. cbn [map] in ND. apply NoDup_cons_iff in ND. destruct ND as [N1 N2].
  assert (E : ent (e :: l) r = ((if (fst e =? r)%Z then snd e else 0) + ent l r)%R) by reflexivity. rewrite E. clear E.
  destruct Hin as [->|Hin].
  - cbn [fst snd]. rewrite Z.eqb_refl, ent_out by exact N1. lra.
  - rewrite (IH N2 Hin). destruct (Z.eqb_spec (fst e) r) as [E|]; [|lra].
    exfalso. apply N1. rewrite E. apply in_map_iff. exists (r, v). auto.
Qed.

Lemma a0_sym n (col : cols R) Pf Qf k r : isperm n Pf Qf -> rows_in n n col ->
  (forall j, 0 <= j < n -> NoDup (map fst (bcol Pf Qf col j))) ->
  (forall i j v, 0 <= i < n -> 0 <= j < n -> In (i, v) (col j) -> In (j, v) (col i)) ->
  0 <= k < n -> 0 <= r < n -> a0 RA col Pf Qf k r = Bmat col Pf Qf k r.
Proof.
  intros HP HR HD HS Hk Hr. unfold a0, Bmat.
  assert (T : forall k r v, 0 <= k < n -> 0 <= r < n -> In (r, v) (bcol Pf Qf col k) -> In (k, v) (bcol Pf Qf col r)).
  { clear k r Hk Hr. intros k r v Hk Hr Hin. unfold bcol in *. apply in_map_iff in Hin. destruct Hin as [[i u] [E Hin]].
    cbn [fst snd] in E. inversion E; subst r v. pose proof (pf_range _ _ _ HP k Hk) as HPk.
    assert (Hi : 0 <= i < n) by (eapply HR; eauto). rewrite (pf_qf _ _ _ HP i Hi).
    apply in_map_iff. exists (Pf k, u). cbn [fst snd]. rewrite (qf_pf _ _ _ HP k Hk). split; auto. }
  destruct (in_dec Z.eq_dec r (map fst (bcol Pf Qf col k))) as [Hin|Hout].
  - apply in_map_iff in Hin. destruct Hin as [[r' v] [E Hin]]. cbn [fst] in E. subst r'.
    rewrite (last_in _ r v (HD k Hk) Hin). symmetry. apply ent_in; [apply HD; auto|]. apply T; auto.
  - rewrite last_out by auto. symmetry. apply ent_out. intros H. apply Hout. apply in_map_iff in H.
    destruct H as [[k' v] [E Hin]]. cbn [fst] in E. subst k'. apply (in_map fst) with (x := (r, v)). apply T; auto.
Qed.

Lemma bcol_nodup {F} (d : F) n Ap Ai (Ax : arr F) nz Pf Qf j :
  csc_pattern n n Ap Ai nz -> no_repeats n Ap Ai -> isperm n Pf Qf -> 0 <= j < n ->
  NoDup (map fst (bcol Pf Qf (column d Ap Ai Ax) j)).
Proof.
  intros Hpat Hrep HP Hj. unfold bcol, column. rewrite !map_map. cbn [fst].
  pose proof (pf_range _ _ _ HP j Hj) as HPj.
  destruct (cp_mono _ _ _ _ _ Hpat _ HPj) as [a [b [Ea [Eb Hab]]]].
  rewrite (get_rd 0 Ap _ a Ea), (get_rd 0 Ap _ b Eb).
  pose proof (pattern_range _ _ _ _ _ _ _ _ Hpat HPj Ea Eb) as Hr.
  assert (G : forall l, NoDup l -> (forall q, In q l -> a <= q < b) -> NoDup (map (fun q => Qf (get 0 Ai q)) l)).
  2:{ apply G; [apply NoDup_zr|]. intros q Hq. apply in_zr in Hq. lia. }
  induction l as [|q l IH]; intros ND Hl; [constructor|]. cbn [map]. apply NoDup_cons_iff in ND. destruct ND as [N1 N2].
  constructor; [|apply IH; auto; intros x Hx; apply Hl; right; auto].
  intros H. apply in_map_iff in H. destruct H as [q' [E Hq']]. apply N1.
  pose proof (Hl q (or_introl eq_refl)) as B1. pose proof (Hl q' (or_intror Hq')) as B2.
  destruct (cp_rows _ _ _ _ _ Hpat q ltac:(lia)) as [i [Ei Hi]]. destruct (cp_rows _ _ _ _ _ Hpat q' ltac:(lia)) as [i' [Ei' Hi']].
  rewrite (get_rd 0 Ai q i Ei), (get_rd 0 Ai q' i' Ei') in E.
  assert (i' = i) by (rewrite <- (pf_qf _ _ _ HP i Hi), <- (pf_qf _ _ _ HP i' Hi'), E; reflexivity). subst i'.
  rewrite (Hrep _ a b q q' i HPj Ea Eb B1 B2 Ei Ei'). exact Hq'.
Qed.

Lemma cover_a0 A n Ap Ai nz (Ax Ax' : arr (car A)) P Pinv' Qf U k r :
  csc_pattern n n Ap Ai nz -> isperm n (elim_index P) Qf -> pget n Pinv' Qf ->
  marks_cover_below U n Ap Ai Ax Ax' P Pinv' -> 0 <= k < n -> ~ marked U n k -> k <= r < n ->
  a0 A (column (f0 A) Ap Ai Ax') (elim_index P) Qf k r = a0 A (column (f0 A) Ap Ai Ax) (elim_index P) Qf k r.
Proof.
  intros Hpat HP Hg Hc Hk Hm Hr. unfold a0, bcol, column. rewrite !map_map.
  pose proof (pf_range _ _ _ HP k Hk) as HPk.
  destruct (cp_mono _ _ _ _ _ Hpat _ HPk) as [a [b [Ea [Eb Hab]]]].
  rewrite (get_rd 0 Ap _ a Ea), (get_rd 0 Ap _ b Eb).
  assert (Hb : 0 <= a /\ b <= nz) by (eapply pattern_range; eauto).
  assert (G : forall l acc, (forall q, In q l -> a <= q < b) ->
    fold_left (fun acc e => if fst e =? r then snd e else acc)
      (map (fun q => (Qf (fst (get 0 Ai q, get (f0 A) Ax' q)), snd (get 0 Ai q, get (f0 A) Ax' q))) l) acc =
    fold_left (fun acc e => if fst e =? r then snd e else acc)
      (map (fun q => (Qf (fst (get 0 Ai q, get (f0 A) Ax q)), snd (get 0 Ai q, get (f0 A) Ax q))) l) acc).
  2:{ apply G. intros q Hq. apply in_zr in Hq. lia. }
  induction l as [|q l IH]; intros acc Hl; [reflexivity|]. cbn [map fold_left fst snd].
  assert (Hq : a <= q < b) by (apply Hl; left; auto).
  destruct (cp_rows _ _ _ _ _ Hpat q ltac:(lia)) as [i [Ei Hi]]. rewrite (get_rd 0 Ai q i Ei).
  destruct (Z.eqb_spec (Qf i) r) as [Er|Er].
  - assert (E : rd Ax' q = rd Ax q) by (apply (Hc k q a b i (Qf i)); auto; lia).
    unfold get at 1 3. rewrite E. apply IH. intros x Hx. apply Hl. right. auto.
  - apply IH. intros x Hx. apply Hl. right. auto.
Qed.

Section Run.
Variables (n : Z) (Ap Ai : arr Z) (nz : Z) (P Pinv : option (arr Z)) (Lp Parent Lnz Flag : arr Z).
Hypothesis Hn : 0 <= n.
Hypothesis Hpat : csc_pattern n n Ap Ai nz.
Hypothesis Hsp : symmetric_pattern n Ap Ai.
Hypothesis Hord : usable_order n P Pinv.
Hypothesis HLp : zlen Lp = n + 1.
Hypothesis HPa : zlen Parent = n.
Hypothesis HLn : zlen Lnz = n.
Hypothesis HFl : zlen Flag = n.
Variables (Lp' Parent' Lnz' Flag' : arr Z) (Pinv' : option (arr Z)).
Hypothesis Hsym : LDL_symbolic n Ap Ai Lp Parent Lnz Flag P Pinv = Ok (Lp', Parent', Lnz', Flag', Pinv').

Variable A : Arith.
Hypothesis Hdiv : div_ok A.
Variables (Ax Ax' : arr (car A)) (w w1 : numst A) (r1 : Z).
Hypothesis HAx : filled Ax nz.
Hypothesis HAx' : filled Ax' nz.
Hypothesis Hw : work_sizes A n (get 0 Lp' n) w.
(* the factor of the old values *)
Hypothesis Hold : LDL_numeric A n Ap Ai Ax Lp' Parent' w P Pinv' = Ok (r1, w1).
Variables (Lti0 Ltp0 Lti Ltp : arr Z).
Hypothesis HLti0 : zlen Lti0 = get 0 Lp' n.
Hypothesis HLtp0 : zlen Ltp0 = n + 1.
Hypothesis Htrans : Transpose_Row_Count n n (nLi A w1) Lp' Lti0 Ltp0 = Ok (Lti, Ltp).
Variable U : arr Z.
Hypothesis HU : filled U n.
Hypothesis Hclosed : marks_closed U Parent' n.
Hypothesis Hstop : marks_stop U Lp' Parent' n.
Variable Y : arr (car A).
Hypothesis HY : zlen Y = n.
Hypothesis HY0 : forall i, 0 <= i < n -> rd Y i = Ok (f0 A).

Local Notation col := (column (f0 A) Ap Ai Ax).
Local Notation col' := (column (f0 A) Ap Ai Ax').
Local Notation Pf := (elim_index P).

Lemma left_run : exists Qf par y Lv Dv,
  isperm n Pf Qf /\ forest n par (brows Pf Qf col) /\ is_vec Parent' n par /\ pget n Pinv' Qf /\ pget n P Pf /\
  Csc Ap Ai Ax n col /\ rows_in n n col /\ Csc Ap Ai Ax' n col' /\ rows_in n n col' /\
  is_vec Lp' (n + 1) (Lpf A n col' Pf Qf par) /\
  NumSpec A n col Pf Qf par y Lv Dv /\
  (forall i, 0 <= i < n -> flag_of n U i = true -> par i <> -1 -> flag_of n U (par i) = true) /\
  (forall i, 0 <= i < n -> holds (nLi A w1) (Lpf A n col' Pf Qf par i) (lrows A n col' Pf Qf par n i)) /\
  forall Lv2 Dv2,
  (forall k, 0 <= k < n -> flag_of n U k = true -> LCol A n col' Pf Qf par k Lv2 Dv2) ->
  (forall k, 0 <= k < n -> flag_of n U k = false -> Dv2 k = Dv k /\
     forall r, In r (lrows A n col Pf Qf par n k) -> Lv2 r k = Lv r k) ->
  exists work Lx2 D2 Y2,
    LDL_cache_numeric A n Ap Ai Ax' Ltp Lti (nLi A w1) Lp' (nLx A w1) (nD A w1) Y P Pinv' U = Ok (n, (Lx2, D2, Y2)) /\
    LSt A n col' Pf Qf par (flag_of n U) Lv2 Dv2 n (work, Lx2, D2, Y2).
Proof.
  destruct (sym_facts n Ap Ai nz P Pinv Lp Parent Lnz Flag Hn Hpat Hord HLp HPa HLn HFl A Ax HAx) as
    [Qf [par [Lp2 [Pa2 [Ln2 [Fl2 [Pi2 [E [C [R [HP [Hg [Hg' [HF [H1 [H2 [H3 H4]]]]]]]]]]]]]]]]].
  rewrite Hsym in E. injection E as <- <- <- <- <-.
  pose proof (numF_spec A n col Pf Qf par HF Hdiv) as HN.
  set (y := fac_y A (numF A n col Pf Qf par n)) in *.
  set (Lv := fac_L A (numF A n col Pf Qf par n)) in *.
  set (Dv := fac_D A (numF A n col Pf Qf par n)) in *.
  destruct (csc_link (f0 A) n n Ap Ai Ax' nz Hn (mkCscArrays _ _ _ _ _ _ _ Hpat HAx')) as [C' [R' _]].
  assert (Erows : forall k, brows Pf Qf col' k = brows Pf Qf col k) by (intros k; apply brows_same).
  assert (HF' : forest n par (brows Pf Qf col')) by (eapply forest_same; eauto).
  assert (HL2 : is_vec Lp' (n + 1) (Lpf A n col' Pf Qf par)).
  { destruct H2 as [L2 R2]. split; auto. intros i Hi. rewrite (Lpf_same A n col col' Pf Qf par Erows). apply R2; auto. }
  assert (Hcl : forall i, 0 <= i < n -> flag_of n U i = true -> par i <> -1 -> flag_of n U (par i) = true).
  { intros i Hi Fi Hp. apply (flag_marked n U HU).
    - destruct (fo_par _ _ _ HF i Hi); [tauto|lia].
    - apply (Hclosed i (par i)); auto; [apply (flag_marked n U HU); auto|apply H1; auto]. }
  (* the old factor *)
  assert (El : get 0 Lp' n = Lpf A n col Pf Qf par n) by (apply get_rd, H2; lia).
  rewrite El in Hw. destruct Hw as [W1 W2 W3 W4 W5 W6 W7].
  pose proof (LDL_numeric_ok A n col Pf Qf par HF _ _ _ HN Ap Ai Ax Lp' Parent' P Pinv' w Hn C R HP Hg Hg'
    (is_vec_vec _ _ _ H1) (is_vec_vec _ _ _ H2) W1 W2 W3 W4 W5 W6 W7) as HW.
  destruct (wp_ok_inv _ _ _ HW Hold) as [_ HS]. cbn [snd] in HS.
  pose proof (NumSt_Csc A n col Pf Qf par Lv Dv w1 Lp' Hn (is_vec_vec _ _ _ H2) HS) as HC1.
  destruct HS as [S1 [S2 [S3 [S4 [S5 [S6 [S7 [S8 [S9 [S10 [S11 _]]]]]]]]]]].
  assert (HLi : forall i, 0 <= i < n -> holds (nLi A w1) (Lpf A n col' Pf Qf par i) (lrows A n col' Pf Qf par n i)).
  { intros i Hi. rewrite (Lpf_same A n col col' Pf Qf par Erows), (lrows_same A n col col' Pf Qf par Erows). auto. }
  exists Qf, par, y, Lv, Dv. do 13 (split; [assumption|]).
  intros Lv2 Dv2 HCR Hun.
  (* its transposed pattern *)
  pose proof (Transpose_Row_Count_ok A n n (nLi A w1) Lp' (nLx A w1) (lcol A n col Pf Qf par Lv) Lti0 Ltp0 Hn Hn HC1
    (lcol_rows A n col Pf Qf par Lv) HLtp0) as HT.
  rewrite lcol_start, <- El in HT. specialize (HT HLti0).
  pose proof (wp_ok_inv _ _ _ HT Htrans) as [[T1 T2] [T3 T4]]. clear HT.
  assert (Hsl : forall k, 0 <= k < n -> sl A n col' Pf Qf par k = sl A n col Pf Qf par k)
    by (intros k _; apply (sl_same A n col col' Pf Qf par Erows)).
  assert (G : wp (LDL_cache_numeric A n Ap Ai Ax' Ltp Lti (nLi A w1) Lp' (nLx A w1) (nD A w1) Y P Pinv' U)
    (fun r => let '(d, (Lx', D', Y')) := r in
       d = n /\ exists work, LSt A n col' Pf Qf par (flag_of n U) Lv2 Dv2 n (work, Lx', D', Y'))).
  { eapply left_ok with (tp := start (tcol (lcol A n col Pf Qf par Lv) n)); eauto.
    - rewrite (Lpf_same A n col col' Pf Qf par Erows). exact S2.
    - apply is_vec_vec. exact HL2.
    - intros k Hk. rewrite start_succ by lia. rewrite tcol_lcol by auto. rewrite zlen_map, Hsl by auto. reflexivity.
    - intros k Hk t x Hx. rewrite Hsl in Hx by auto. apply (T4 k t x (Lv k x) Hk).
      rewrite tcol_lcol by auto. rewrite nth_error_map, Hx. reflexivity.
    - intros k Hk. destruct (HU k Hk) as [u Eu]. exists u. split; auto. unfold flag_of. rewrite (get_rd 0 U k u Eu). reflexivity.
    - (* symmetric pattern *)
      intros k r Hk Hr Hin.
      assert (HB : forall j i, 0 <= j < n -> In i (brows Pf Qf col' j) -> 0 <= i < n).
      { intros j i Hj Hi. unfold brows in Hi. apply in_map_iff in Hi. destruct Hi as [[a v] [<- Ha]]. cbn [fst].
        apply (qf_range _ _ _ HP). eapply R'; [apply (pf_range _ _ _ HP j Hj)|exact Ha]. }
      apply patlist_covers; [lia|intros i Hi; eapply (HB r); eauto; lia|apply (fo_topo _ _ _ HF'); lia| |lia].
      unfold brows in Hin. apply in_map_iff in Hin. destruct Hin as [[a v] [Ea Ha]]. cbn [fst] in Ea.
      pose proof (pf_range _ _ _ HP k ltac:(lia)) as HPk.
      assert (Ha' : 0 <= a < n) by (eapply R'; eauto).
      apply (Csc_stored _ _ _ _ _ _ _ _ C' HPk) in Ha. destruct Ha as [lo [hi [q [Q1 [Q2 [Q3 [Q4 Q5]]]]]]].
      destruct (Hsp a (Pf k) Ha' HPk) as [lo' [hi' [q' [V1 [V2 [V3 V4]]]]]]; [exists lo, hi, q; auto|].
      pose proof (pattern_range _ _ _ _ _ _ _ _ Hpat Ha' V1 V2) as Hrg.
      destruct (HAx' q' ltac:(lia)) as [v' Ev'].
      assert (Hst : In (Pf k, v') (col' a)).
      { apply (Csc_stored _ _ _ _ _ _ _ _ C' Ha'). exists lo', hi', q'. auto. }
      unfold brows. rewrite <- Ea, (pf_qf _ _ _ HP a Ha'). apply in_map_iff. exists (Pf k, v'). cbn [fst].
      rewrite (qf_pf _ _ _ HP) by lia. auto.
    - (* room behind the last column *)
      intros c Hc Fc Hno.
      assert (Hnm : ~ marked U n c) by (intros Hm; apply (flag_marked n U HU c Hc) in Hm; congruence).
      destruct (Hstop c Hc Hnm) as [[p [Ep [Hp Hm]]]|Hlt].
      + exfalso. rewrite (proj2 H1 c Hc) in Ep. injection Ep as <-.
        assert (Hpr : 0 <= par c < n) by (destruct (fo_par _ _ _ HF c Hc); lia).
        apply (flag_marked n U HU _ Hpr) in Hm. rewrite Hno in Hm; [discriminate|].
        apply in_lrows. split; auto. apply (fo_exact _ _ _ HF' c (par c)); auto.
      + rewrite (get_rd 0 Lp' (c + 1) _ (proj2 HL2 (c + 1) ltac:(lia))), (get_rd 0 Lp' n _ (proj2 HL2 n ltac:(lia))) in Hlt. exact Hlt.
    - rewrite (Lpf_same A n col col' Pf Qf par Erows). exact S3.
    - intros c t r Hc Ht Fc. rewrite (lrows_same A n col col' Pf Qf par Erows) in Ht. rewrite (Lpf_same A n col col' Pf Qf par Erows).
      destruct (Hun c Hc Fc) as [_ HL]. rewrite (HL r (nth_error_In _ _ Ht)). apply (S10 c Hc).
      unfold Lcell. rewrite nth_error_map, Ht. reflexivity.
    - intros c Hc Fc. destruct (Hun c Hc Fc) as [-> _]. apply S11. auto. }
  apply wp_exists in G. destruct G as [[d [[Lx2 D2] Y2]] [EG [Ed [work HSt]]]]. subst d. exists work, Lx2, D2, Y2. auto.
Qed.

(** *** Any arithmetic: the run stays inside its arrays and ends. *)
Theorem C68_in_bounds : exists Lx2 D2 Y2,
  LDL_cache_numeric A n Ap Ai Ax' Ltp Lti (nLi A w1) Lp' (nLx A w1) (nD A w1) Y P Pinv' U = Ok (n, (Lx2, D2, Y2)) /\
  filled Lx2 (get 0 Lp' n) /\ filled D2 n /\ (forall i, 0 <= i < n -> rd Y2 i = Ok (f0 A)).
Proof.
  destruct left_run as [Qf [par [y [Lv [Dv [HP [HF [HPar [Hg' [Hg [C [R [C' [R' [HL2 [HN [Hcl [HLi HX]]]]]]]]]]]]]]]]]].
  assert (Erows : forall k, brows Pf Qf col' k = brows Pf Qf col k) by (intros k; apply brows_same).
  assert (HF' : forest n par (brows Pf Qf col')) by (eapply forest_same; eauto).
  destruct (left_exists A n col' Pf Qf par HF' (flag_of n U) Lv Dv Hdiv Hn) as [Lv2 [Dv2 [G1 G2]]].
  destruct (HX Lv2 Dv2 G1) as [work [Lx2 [D2 [Y2 [ER [_ [L1 [L2 [L3 [_ [_ [R1 [R2 R3]]]]]]]]]]]]].
  { intros k Hk Fk. destruct (G2 k Hk Fk) as [Ed El]. split; auto. }
  exists Lx2, D2, Y2. split; [exact ER|]. split; [|split].
  - intros q Hq.
    assert (El : get 0 Lp' n = start (lcol A n col' Pf Qf par Lv2) n) by (rewrite lcol_start; apply get_rd, HL2; lia).
    rewrite El in Hq. destruct (start_decompose _ n q Hn Hq) as [j [t [Hj [Ht ->]]]].
    destruct (nth_error (lrows A n col' Pf Qf par n j) (Z.to_nat t)) as [r|] eqn:Er.
    2:{ apply nth_error_None in Er. unfold lcol in Ht. rewrite zlen_map in Ht. unfold zlen in Ht. lia. }
    exists (Lv2 r j). rewrite lcol_start. replace t with (Z.of_nat (Z.to_nat t)) by lia. apply R1; auto.
    right. lia.
  - intros i Hi. exists (Dv2 i). apply R2; auto. right. lia.
  - intros i Hi. apply R3; auto.
Qed.

End Run.

Section Exact.
Variables (n : Z) (Ap Ai : arr Z) (nz : Z) (P Pinv : option (arr Z)) (Lp Parent Lnz Flag : arr Z).
Hypothesis Hn : 0 <= n.
Hypothesis Hpat : csc_pattern n n Ap Ai nz.
Hypothesis Hrep : no_repeats n Ap Ai.
Hypothesis Hord : usable_order n P Pinv.
Hypothesis HLp : zlen Lp = n + 1.
Hypothesis HPa : zlen Parent = n.
Hypothesis HLn : zlen Lnz = n.
Hypothesis HFl : zlen Flag = n.
Variables (Lp' Parent' Lnz' Flag' : arr Z) (Pinv' : option (arr Z)).
Hypothesis Hsym : LDL_symbolic n Ap Ai Lp Parent Lnz Flag P Pinv = Ok (Lp', Parent', Lnz', Flag', Pinv').
Variables (Ax Ax' : arr R) (w w' w1 w2 : numst RA) (r1 r2 : Z).
Hypothesis HAx : filled Ax nz.
Hypothesis HAx' : filled Ax' nz.
Hypothesis HSx : symmetric_values n Ap Ai Ax.
Hypothesis HSx' : symmetric_values n Ap Ai Ax'.
Hypothesis Hw : work_sizes RA n (get 0 Lp' n) w.
Hypothesis Hw' : work_sizes RA n (get 0 Lp' n) w'.
Hypothesis Hold : LDL_numeric RA n Ap Ai Ax Lp' Parent' w P Pinv' = Ok (r1, w1).
Hypothesis Hnew : LDL_numeric RA n Ap Ai Ax' Lp' Parent' w' P Pinv' = Ok (r2, w2).
Variables (Lti0 Ltp0 Lti Ltp : arr Z).
Hypothesis HLti0 : zlen Lti0 = get 0 Lp' n.
Hypothesis HLtp0 : zlen Ltp0 = n + 1.
Hypothesis Htrans : Transpose_Row_Count n n (nLi RA w1) Lp' Lti0 Ltp0 = Ok (Lti, Ltp).
Variable U : arr Z.
Hypothesis HU : filled U n.
Hypothesis Hclosed : marks_closed U Parent' n.
Hypothesis Hstop : marks_stop U Lp' Parent' n.
Hypothesis Hcover : marks_cover_below U n Ap Ai Ax Ax' P Pinv'.
Variable Y : arr R.
Hypothesis HY : zlen Y = n.
Hypothesis HY0 : forall i, 0 <= i < n -> rd Y i = Ok 0%R.

Lemma sym_pattern : symmetric_pattern n Ap Ai.
Proof.
  intros i j Hi Hj [a [b [k [E1 [E2 [Hk E3]]]]]].
  pose proof (pattern_range _ _ _ _ _ _ _ _ Hpat Hj E1 E2) as Hr. destruct (HAx k ltac:(lia)) as [v Ev].
  destruct (HSx i j v Hi Hj) as [a' [b' [k' [F1 [F2 [F3 [F4 _]]]]]]]; [exists a, b, k; auto|]. exists a', b', k'. auto.
Qed.

(** *** Exact arithmetic: the updated arrays are those of a factorisation from scratch. *)
Theorem C68_refactor : exists Lx2 D2 Y2,
  LDL_cache_numeric RA n Ap Ai Ax' Ltp Lti (nLi RA w1) Lp' (nLx RA w1) (nD RA w1) Y P Pinv' U = Ok (n, (Lx2, D2, Y2)) /\
  (forall q, 0 <= q < get 0 Lp' n -> exists v r, rd Lx2 q = Ok v /\ rd (nLx RA w2) q = Ok v /\
     rd (nLi RA w1) q = Ok r /\ rd (nLi RA w2) q = Ok r) /\
  (forall i, 0 <= i < n -> exists d, rd D2 i = Ok d /\ rd (nD RA w2) i = Ok d) /\
  (forall i, 0 <= i < n -> rd Y2 i = Ok 0%R).
Proof.
  destruct (left_run n Ap Ai nz P Pinv Lp Parent Lnz Flag Hn Hpat sym_pattern Hord HLp HPa HLn HFl Lp' Parent' Lnz' Flag' Pinv' Hsym
    RA div_ok_R Ax Ax' w w1 r1 HAx HAx' Hw Hold Lti0 Ltp0 Lti Ltp HLti0 HLtp0 Htrans U HU Hclosed Hstop Y HY HY0)
    as [Qf [par [y [Lv [Dv [HP [HF [HPar [Hg' [Hg [C [R0 [C' [R' [HL2 [HN [Hcl [HLi1 HX]]]]]]]]]]]]]]]]]].
  set (col := column (f0 RA) Ap Ai Ax) in *. set (col' := column (f0 RA) Ap Ai Ax') in *. set (Pf := elim_index P) in *.
  assert (Erows : forall k, brows Pf Qf col' k = brows Pf Qf col k) by (intros k; apply brows_same).
  assert (HF' : forest n par (brows Pf Qf col')) by (eapply forest_same; eauto).
  pose proof (numF_spec RA n col' Pf Qf par HF' div_ok_R) as HN'.
  set (y2 := fac_y RA (numF RA n col' Pf Qf par n)) in *.
  set (Lv2 := fac_L RA (numF RA n col' Pf Qf par n)) in *.
  set (Dv2 := fac_D RA (numF RA n col' Pf Qf par n)) in *.
  (* the new factor *)
  assert (El : get 0 Lp' n = Lpf RA n col' Pf Qf par n) by (apply get_rd, HL2; lia).
  rewrite El in Hw'. destruct Hw' as [W1 W2 W3 W4 W5 W6 W7].
  pose proof (LDL_numeric_ok RA n col' Pf Qf par HF' _ _ _ HN' Ap Ai Ax' Lp' Parent' P Pinv' w' Hn C' R' HP Hg Hg'
    (is_vec_vec _ _ _ HPar) (is_vec_vec _ _ _ HL2) W1 W2 W3 W4 W5 W6 W7) as HW.
  destruct (wp_ok_inv _ _ _ HW Hnew) as [_ HS]. cbn [snd] in HS.
  destruct HS as [_ [_ [_ [_ [_ [_ [_ [_ [S9 [S10 [S11 _]]]]]]]]]]].
  assert (HLo : forall k, 0 <= k < n -> LCol RA n col Pf Qf par k Lv Dv).
  { apply (NumSpec_LCol n col Pf Qf par y Lv Dv HF HP R0 HN). intros k r Hk Hr. apply (a0_sym n); auto; try lia.
    - intros j Hj. apply (bcol_nodup _ n _ _ _ nz); auto.
    - intros i j v Hi Hj. rewrite <- (Csc_stored _ _ _ _ _ _ _ _ C Hj), <- (Csc_stored _ _ _ _ _ _ _ _ C Hi). apply HSx; auto. }
  assert (HLn2 : forall k, 0 <= k < n -> LCol RA n col' Pf Qf par k Lv2 Dv2).
  { apply (NumSpec_LCol n col' Pf Qf par y2 Lv2 Dv2 HF' HP R' HN'). intros k r Hk Hr. apply (a0_sym n); auto; try lia.
    - intros j Hj. apply (bcol_nodup _ n _ _ _ nz); auto.
    - intros i j v Hi Hj. rewrite <- (Csc_stored _ _ _ _ _ _ _ _ C' Hj), <- (Csc_stored _ _ _ _ _ _ _ _ C' Hi). apply HSx'; auto. }
  destruct (HX Lv2 Dv2) as [work [Lx2 [D2 [Y2 [ER [_ [L1 [L2 [L3 [_ [_ [R1 [R2 R3]]]]]]]]]]]]].
  { intros k Hk _. apply HLn2; auto. }
  { apply (left_unmarked RA n col col' Pf Qf par Erows HF (flag_of n U) Lv Dv Lv2 Dv2 HLo HLn2 Hcl).
    intros k r Hk Fk Hr. eapply cover_a0; eauto. intros Hm. apply (flag_marked n U HU k Hk) in Hm. congruence. }
  exists Lx2, D2, Y2. split; [exact ER|]. split; [|split].
  - intros q Hq.
    rewrite El, <- (lcol_start RA n col' Pf Qf par Lv2) in Hq.
    destruct (start_decompose _ n q Hn Hq) as [j [t [Hj [Ht ->]]]].
    destruct (nth_error (lrows RA n col' Pf Qf par n j) (Z.to_nat t)) as [r|] eqn:Er.
    2:{ apply nth_error_None in Er. unfold lcol in Ht. rewrite zlen_map in Ht. unfold zlen in Ht. lia. }
    exists (Lv2 r j), r. rewrite lcol_start. replace t with (Z.of_nat (Z.to_nat t)) by lia.
    split; [apply R1; auto; right; lia|]. split; [|split].
    + apply (S10 j Hj). unfold Lcell. rewrite nth_error_map, Er. reflexivity.
    + apply (HLi1 j Hj). exact Er.
    + apply (S9 j Hj). exact Er.
  - intros i Hi. exists (Dv2 i). split; [apply R2; auto; right; lia|apply S11; auto].
  - intros i Hi. apply R3; auto.
Qed.

End Exact.

(** *** With the marks of test_reach

    Factor once; change values only in the columns of the inequality rows; mark; refactor the marked columns. *)
Theorem C68_update_and_refactor n m p Ap Ai nz pp q0 Lp Parent Lnz Flag Lp' Parent' Lnz' Flag' qq
  (Ax Ax' : arr R) (w w' w1 w2 : numst RA) r1 r2 Lti0 Ltp0 Lti Ltp U U' (Y : arr R) : let N := n + m + p in
  0 <= m -> 0 <= n + p -> 1 <= N -> csc_pattern N N Ap Ai nz -> no_repeats N Ap Ai -> permutation_array pp N -> zlen q0 = N ->
  zlen Lp = N + 1 -> zlen Parent = N -> zlen Lnz = N -> zlen Flag = N ->
  LDL_symbolic N Ap Ai Lp Parent Lnz Flag (Some pp) (Some q0) = Ok (Lp', Parent', Lnz', Flag', Some qq) ->
  filled Ax nz -> filled Ax' nz -> symmetric_values N Ap Ai Ax -> symmetric_values N Ap Ai Ax' ->
  work_sizes RA N (get 0 Lp' N) w -> work_sizes RA N (get 0 Lp' N) w' ->
  LDL_numeric RA N Ap Ai Ax Lp' Parent' w (Some pp) (Some qq) = Ok (r1, w1) ->
  LDL_numeric RA N Ap Ai Ax' Lp' Parent' w' (Some pp) (Some qq) = Ok (r2, w2) ->
  zlen Lti0 = get 0 Lp' N -> zlen Ltp0 = N + 1 ->
  Transpose_Row_Count N N (nLi RA w1) Lp' Lti0 Ltp0 = Ok (Lti, Ltp) ->
  zlen U = N -> filled U N -> (forall x, ~ marked U N x) ->
  test_reach Parent' qq U n m p = Ok U' ->
  (* the last two steps are connected *)
  (1 < N -> rd Parent' (N - 2) = Ok (N - 1)) ->
  (forall c a b q, 0 <= c < n + p -> rd Ap c = Ok a -> rd Ap (c + 1) = Ok b -> a <= q < b -> rd Ax' q = rd Ax q) ->
  zlen Y = N -> (forall i, 0 <= i < N -> rd Y i = Ok 0%R) ->
  exists Lx2 D2 Y2,
    LDL_cache_numeric RA N Ap Ai Ax' Ltp Lti (nLi RA w1) Lp' (nLx RA w1) (nD RA w1) Y (Some pp) (Some qq) U' =
      Ok (N, (Lx2, D2, Y2)) /\
    (forall q, 0 <= q < get 0 Lp' N -> exists v r, rd Lx2 q = Ok v /\ rd (nLx RA w2) q = Ok v /\
       rd (nLi RA w1) q = Ok r /\ rd (nLi RA w2) q = Ok r) /\
    (forall i, 0 <= i < N -> exists d, rd D2 i = Ok d /\ rd (nD RA w2) i = Ok d) /\
    (forall i, 0 <= i < N -> rd Y2 i = Ok 0%R).
Proof.
  intros N Hm Hnp HN Hpat Hrep HP Lq L1 L2 L3 L4 Hsym HAx HAx' HS HS' Hw Hw' Hold Hnew LT1 LT2 Htr LU HU Hno E Htop Hsame LY HY0.
  assert (Hord : usable_order N (Some pp) (Some q0)) by (split; eauto).
  destruct (C06_symbolic N Ap Ai nz (Some pp) (Some q0) Lp Parent Lnz Flag ltac:(lia) Hpat Hord L1 L2 L3 L4) as
    [Lp2 [Pa2 [Ln2 [Fl2 [Pi2 [Es [Hinv [Hfor _]]]]]]]].
  rewrite Hsym in Es. injection Es as <- <- <- <- <-. destruct Hinv as [qq' [Eq' [_ [Hinv _]]]]. injection Eq' as <-.
  assert (Hroot : rd Parent' (N - 1) = Ok (-1)).
  { destruct (Hfor (N - 1) ltac:(lia)) as [v [Ev [->|Hv]]]; [exact Ev|lia]. }
  destruct (test_reach_pw Parent' qq U n m p Hm Hroot LU Hno U' E) as [L [C [F [M [J K]]]]].
  apply (C68_refactor N Ap Ai nz (Some pp) (Some q0) Lp Parent Lnz Flag ltac:(lia) Hpat Hrep Hord L1 L2 L3 L4
    Lp' Parent' Lnz' Flag' (Some qq) Hsym Ax Ax' w w' w1 w2 r1 r2 HAx HAx' HS HS' Hw Hw' Hold Hnew Lti0 Ltp0 Lti Ltp LT1 LT2 Htr
    U' (F HU)); auto.
  - intros i q Hi Hmk Eq Hne. destruct (C i q Hmk Eq) as [->|[_ H]]; auto. congruence.
  - intros k Hk Hnm. fold N in M.
    destruct (Z.eq_dec k (N - 1)) as [->|]; [tauto|]. specialize (Htop ltac:(lia)).
    destruct (Z.eq_dec k (N - 2)) as [->|]; [left; exists (N - 1); split; [auto|split; [lia|auto]]|right].
    destruct (sym_facts N Ap Ai nz (Some pp) (Some q0) Lp Parent Lnz Flag ltac:(lia) Hpat Hord L1 L2 L3 L4 RA Ax HAx) as
      [Qf [par [Lp2 [Pa2 [Ln2 [Fl2 [Pi2 [E' [_ [_ [_ [_ [_ [HF [H1 [H2 _]]]]]]]]]]]]]]]].
    rewrite Hsym in E'. injection E' as <- <- <- <- <-.
    rewrite (get_rd 0 Lp' (k + 1) _ (proj2 H2 (k + 1) ltac:(lia))), (get_rd 0 Lp' N _ (proj2 H2 N ltac:(lia))).
    rewrite (proj2 H1 (N - 2) ltac:(lia)) in Htop. injection Htop as Hpar.
    pose proof (fo_exact _ _ _ HF (N - 2) (N - 1) ltac:(lia) Hpar ltac:(lia)) as Hin.
    match goal with |- Lpf RA N ?c ?f ?g par _ < _ =>
      pose proof (Lpf_mono RA N c f g par (k + 1) (N - 2) ltac:(lia)) as M1;
      pose proof (Lpf_mono RA N c f g par (N - 2 + 1) N ltac:(lia)) as M2;
      pose proof (Lpf_succ RA N c f g par (N - 2) ltac:(lia)) as M3;
      assert (Hrow : In (N - 1) (lrows RA N c f g par N (N - 2))) by (apply in_lrows; split; [lia|exact Hin]);
      unfold lnzf in M3; rewrite <- zlen_lrows in M3; destruct (lrows RA N c f g par N (N - 2)) as [|x l]; [destruct Hrow|];
      rewrite zlen_cons in M3; pose proof (zlen_nonneg l); lia
    end.
  - intros k q a b r i Hk Hmk Ea Eb Hq Er Ei Hik.
    destruct (pa_range _ _ HP k Hk) as [c [Ec Hc]]. cbn [elim_index] in *. rewrite (get_rd 0 pp k c Ec) in *.
    destruct (Z.lt_ge_cases c (n + p)) as [Hlt|Hge].
    + apply (Hsame c a b q); auto. lia.
    + exfalso. apply Hmk. apply (J c k); [fold N; lia|]. apply Hinv; auto.
Qed.

(** ** Cases *)

Lemma up_repeats : no_repeats 3 up_p up_i.
Proof.
  intros j a b k k' i Hj Ea Eb Hk Hk' Ei Ei'.
  enum j; vm_compute in Ea, Eb; injection Ea as <-; injection Eb as <-;
    assert (H : 0 <= k < 7) by lia; assert (H' : 0 <= k' < 7) by lia;
    enum k; enum k'; try lia; vm_compute in Ei, Ei'; congruence.
Qed.

Lemma up_symmetric A v : symmetric_values 3 up_p up_i (up_x A v).
Proof.
  intros i j u Hi Hj [a [b [k [Ea [Eb [Hk [Ei Ev]]]]]]].
  enum j; vm_compute in Ea, Eb; injection Ea as <-; injection Eb as <-;
    assert (H : 0 <= k < 7) by lia; enum k; try lia; vm_compute in Ei; injection Ei as <-.
  all: first
    [ exists 0, 2, 0; split; [reflexivity|split; [reflexivity|split; [lia|split; [reflexivity|exact Ev]]]] | exists 0, 2, 1; split; [reflexivity|split; [reflexivity|split; [lia|split; [reflexivity|exact Ev]]]]
    | exists 2, 4, 2; split; [reflexivity|split; [reflexivity|split; [lia|split; [reflexivity|exact Ev]]]] | exists 2, 4, 3; split; [reflexivity|split; [reflexivity|split; [lia|split; [reflexivity|exact Ev]]]]
    | exists 4, 7, 4; split; [reflexivity|split; [reflexivity|split; [lia|split; [reflexivity|exact Ev]]]] | exists 4, 7, 5; split; [reflexivity|split; [reflexivity|split; [lia|split; [reflexivity|exact Ev]]]]
    | exists 4, 7, 6; split; [reflexivity|split; [reflexivity|split; [lia|split; [reflexivity|exact Ev]]]] ].
Qed.

Lemma C68_case : exists Lp' Parent' Lnz' Flag' qq,
  LDL_symbolic 3 up_p up_i (malloc _ 4) (malloc _ 3) (malloc _ 3) (malloc _ 3) (Some (zs [1; 0; 2])) (Some (malloc _ 3)) =
    Ok (Lp', Parent', Lnz', Flag', Some qq) /\
  test_reach Parent' qq (zs [0; 0; 0]) 2 1 0 = Ok (zs [0; 0; 3]) /\
  exists w1 w2 Lti Ltp,
    LDL_numeric RA 3 up_p up_i (up_x RA (-1)) Lp' Parent' (up_w RA) (Some (zs [1; 0; 2])) (Some qq) = Ok (3, w1) /\
    LDL_numeric RA 3 up_p up_i (up_x RA (-5)) Lp' Parent' (up_w RA) (Some (zs [1; 0; 2])) (Some qq) = Ok (3, w2) /\
    Transpose_Row_Count 3 3 (nLi RA w1) Lp' (malloc _ 2) (malloc _ 4) = Ok (Lti, Ltp) /\
    exists Lx2 D2 Y2,
    LDL_cache_numeric RA 3 up_p up_i (up_x RA (-5)) Ltp Lti (nLi RA w1) Lp' (nLx RA w1) (nD RA w1) (fs RA [0; 0; 0])
      (Some (zs [1; 0; 2])) (Some qq) (zs [0; 0; 3]) = Ok (3, (Lx2, D2, Y2)) /\
    (forall i, 0 <= i < 3 -> exists d, rd D2 i = Ok d /\ rd (nD RA w2) i = Ok d).
Proof.
  destruct C66_case as [Lp' [Parent' [Lnz' [Flag' [qq [Hs [Ht [w1 [w2 [Lti [Ltp [N1 [N2 [HT _]]]]]]]]]]]]]].
  exists Lp', Parent', Lnz', Flag', qq. split; [exact Hs|]. split; [exact Ht|].
  exists w1, w2, Lti, Ltp. split; [exact N1|]. split; [exact N2|]. split; [exact HT|].
  assert (Hs' : LDL_symbolic 3 up_p up_i (malloc _ 4) (malloc _ 3) (malloc _ 3) (malloc _ 3) (Some (zs [1; 0; 2]))
    (Some (malloc _ 3)) = Ok (zs [0; 1; 2; 2], zs [2; 2; -1], zs [1; 1; 0], zs [2; 2; 2], Some (zs [1; 0; 2]))) by reflexivity.
  pose proof Hs as Hs2. rewrite Hs' in Hs2. injection Hs2 as <- <- <- <- <-.
  destruct (C68_update_and_refactor 2 1 0 up_p up_i 7 (zs [1; 0; 2]) (malloc _ 3) (malloc _ 4) (malloc _ 3) (malloc _ 3) (malloc _ 3)
    _ _ _ _ (zs [1; 0; 2]) (up_x RA (-1)) (up_x RA (-5)) (up_w RA) (up_w RA) w1 w2 3 3 (malloc _ 2) (malloc _ 4) Lti Ltp
    (zs [0; 0; 0]) (zs [0; 0; 3]) (fs RA [0; 0; 0]) ltac:(lia) ltac:(lia) ltac:(lia) up_pattern up_repeats up_perm eq_refl eq_refl eq_refl eq_refl eq_refl
    Hs' (up_values RA _) (up_values RA _) (up_symmetric RA _) (up_symmetric RA _) (up_work RA) (up_work RA) N1 N2 eq_refl eq_refl HT)
    as [Lx2 [D2 [Y2 [E [_ [H _]]]]]].
  - reflexivity.
  - intros k Hk. change (2 + 1 + 0) with 3 in Hk. enum k; eexists; reflexivity.
  - intros x Hx. change (2 + 1 + 0) with 3 in Hx. unfold marked in Hx. pose proof (rd_ok_range _ _ _ Hx) as Hr.
    change (zlen (zs [0; 0; 0])) with 3 in Hr. enum x; discriminate Hx.
  - reflexivity.
  - reflexivity.
  - intros c a b q Hc Ea Eb Hq. change (2 + 0) with 2 in Hc.
    assert (Hq4 : 0 <= q < 4) by (enum c; vm_compute in Ea, Eb; injection Ea as <-; injection Eb as <-; lia).
    clear Hq. enum q; reflexivity.
  - reflexivity.
  - intros i Hi. change (2 + 1 + 0) with 3 in *. enum i; reflexivity.
  - exists Lx2, D2, Y2. split; [exact E|exact H].
Qed.

(** A second root with an empty column at the end: the loop that skips unmarked rows reads Li[Lp[n]]. *)
Definition sep_x (A : Arith) : arr (car A) := fs A [1; 1; 1; 1; 1; -1; 1; -1].
Definition sep_w (A : Arith) : numst A :=
  mkNum A (malloc Z 4) (malloc Z 2) (malloc _ 2) (malloc _ 4) (malloc _ 4) (malloc Z 4) (malloc Z 4).

Lemma C68_in_bounds_refuted A : div_ok A -> exists w1 Lti Ltp,
  LDL_symbolic 4 sep_p sep_i (malloc _ 5) (malloc _ 4) (malloc _ 4) (malloc _ 4) None None =
    Ok (zs [0; 1; 2; 2; 2], zs [2; 3; -1; -1], zs [1; 1; 0; 0], zs [2; 3; 2; 3], None) /\
  LDL_numeric A 4 sep_p sep_i (sep_x A) (zs [0; 1; 2; 2; 2]) (zs [2; 3; -1; -1]) (sep_w A) None None = Ok (4, w1) /\
  Transpose_Row_Count 4 4 (nLi A w1) (zs [0; 1; 2; 2; 2]) (malloc _ 2) (malloc _ 5) = Ok (Lti, Ltp) /\
  marks_closed (zs [0; 0; 0; 4]) (zs [2; 3; -1; -1]) 4 /\
  LDL_cache_numeric A 4 sep_p sep_i (sep_x A) Ltp Lti (nLi A w1) (zs [0; 1; 2; 2; 2]) (nLx A w1) (nD A w1)
    (fs A [0; 0; 0; 0]) None None (zs [0; 0; 0; 4]) = Ub OobRead.
Proof.
  intros Hdiv.
  assert (HN : exists w1, LDL_numeric A 4 sep_p sep_i (sep_x A) (zs [0; 1; 2; 2; 2]) (zs [2; 3; -1; -1]) (sep_w A) None None = Ok (4, w1) /\
    nLi A w1 = zs [2; 3]).
  { unfold sep_x. cbv -[regularize fdiv fadd fsub fmul f0 fopp fdec f1].
    repeat match goal with |- context [fdiv A ?a (regularize A ?d)] => destruct (Hdiv a d) as [? ->] end.
    eexists. split; reflexivity. }
  destruct HN as [w1 [E1 EL]]. exists w1. rewrite EL.
  do 2 eexists. split; [reflexivity|]. split; [exact E1|]. split; [reflexivity|]. split; [|reflexivity].
  intros i p Hi Hm Ep Hp. enum i; try discriminate Hm. vm_compute in Ep. injection Ep as <-. tauto.
Qed.

(** Repeated entries are overwritten, not added as in LDL_numeric: with 1 + 1 stored at one position the
    pivot is 1 instead of 2. *)
Lemma C68_repeats_refuted : exists w1 Lx2 D2 Y2,
  LDL_numeric RA 1 (zs [0; 2]) (zs [0; 0]) (fs RA [1; 1]) (zs [0; 0]) (zs [-1])
    (mkNum RA (malloc Z 1) (malloc Z 0) (malloc _ 0) (malloc _ 1) (malloc _ 1) (malloc Z 1) (malloc Z 1)) None None = Ok (1, w1) /\
  rd (nD RA w1) 0 = Ok 2%R /\
  LDL_cache_numeric RA 1 (zs [0; 2]) (zs [0; 0]) (fs RA [1; 1]) (zs [0; 0]) (malloc Z 0) (malloc Z 0) (zs [0; 0]) (malloc _ 0)
    (nD RA w1) (fs RA [0]) None None (zs [1]) = Ok (1, (Lx2, D2, Y2)) /\
  rd D2 0 = Ok 1%R.
Proof.
  assert (HR : forall d, (1 <= d)%R -> regularize RA d = d).
  { intros d Hd. rewrite regularize_R. apply reg_big. rewrite Rabs_right by lra. lra. }
  do 4 eexists. split; [reflexivity|]. split; [|split; [reflexivity|]].
  - transitivity (Ok (regularize RA (fadd RA (fadd RA (f0 RA) (fofZ RA 1)) (fofZ RA 1)))); [reflexivity|].
    f_equal. cbn [RA fadd f0 fofZ]. rewrite HR; lra.
  - transitivity (Ok (regularize RA (fofZ RA 1))); [reflexivity|]. f_equal. cbn [RA fofZ]. apply HR. lra.
Qed.

Print Assumptions C68_in_bounds.
Print Assumptions C68_refactor.
Print Assumptions C68_update_and_refactor.
Print Assumptions C68_case.
Print Assumptions C68_in_bounds_refuted.
Print Assumptions C68_repeats_refuted.
