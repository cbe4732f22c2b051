(** C65: refactoring only the rows that a change of values can reach gives the same factor as
    factoring from scratch. *)
From Coq Require Import ZArith Reals List Lia Lra Bool.
From Verif Require Import Res Arith Lists MSparse Csc SemVec MLdl LdlSpec LdlSym LdlNum LdlSolve LdlR LdlFun
  TransposeProofs Flat Spec SpecLink P3_Ldl MInactive Cache.
Import ListNotations.
Open Scope Z_scope.
Open Scope res_scope.

(** ** Statement *)

(** Row [k] is marked for an update: UPattern[k] holds the number of rows. *)
Definition marked (U : arr Z) (n k : Z) : Prop := rd U k = Ok n.

(** The marks are closed under the parent pointers of the elimination forest. *)
Definition marks_closed (U Parent : arr Z) (n : Z) : Prop :=
  forall i p, 0 <= i < n -> marked U n i -> rd Parent i = Ok p -> p <> -1 -> marked U n p.

(** The values of an unmarked step are the old ones: column [elim_index P k], rows eliminated up to step k. *)
Definition marks_cover {F} (U : arr Z) (n : Z) (Ap Ai : arr Z) (Ax Ax' : arr F) (P Pinv : option (arr Z)) : Prop :=
  forall k q a b r i, 0 <= k < n -> ~ marked U n k ->
    rd Ap (elim_index P k) = Ok a -> rd Ap (elim_index P k + 1) = Ok b -> a <= q < b ->
    rd Ai q = Ok r -> perm_get Pinv r = Ok i -> i <= k -> rd Ax' q = rd Ax q.

(** ** Proof *)

(** Row solves in exact arithmetic do not depend on the order of the columns. *)
Lemma NumSpec_CRow n (col : cols R) Pf Qf par y Lv Dv :
  forest n par (brows Pf Qf col) -> isperm n Pf Qf -> rows_in n n col ->
  NumSpec RA n col Pf Qf par y Lv Dv -> forall k, 0 <= k < n -> CRow RA n col Pf Qf par k y Lv Dv.
Proof.
  intros HF HP HR HN k Hk.
  assert (Hin : forall i, In i (sl RA n col Pf Qf par k) <-> In i (patlist n par (brows Pf Qf col k) k))
    by (intros i; apply (in_sl RA n col Pf Qf par HF k i Hk)).
  split.
  - intros l1 i l2 E. destruct (sl_split RA n col Pf Qf par k l1 i l2 E) as [H1 H2].
    assert (Hi : In i (patlist n par (brows Pf Qf col k) k)) by (apply Hin; rewrite E; apply in_elt).
    pose proof (pl_in RA n col Pf Qf par HF k i Hk Hi) as Hik.
    pose proof (row_rel n col Pf Qf par HF HP HR y Lv Dv HN k i Hk ltac:(lia)) as ER.
    unfold Yv at 1 in ER. apply inb_true in Hi. rewrite Hi in ER.
    unfold yfold. cbn [car RA fsub fmul].
    rewrite (fold_sub_cond (fun j => inb j (patlist n par (brows Pf Qf col i) i)) (fun j => (Lv i j * y k j)%R)).
    rewrite y0_R. rewrite <- ER.
    enough (EQ : sumr (fun j => if inb j (patlist n par (brows Pf Qf col i) i) then (Lv i j * y k j)%R else 0%R) l1 =
            sumr (fun j => (LL n col Pf Qf par Lv i j * Yv n col Pf Qf par y k j)%R) (zr 0 i)) by (rewrite EQ; lra).
    assert (Hl : forall x, In x l1 -> In x (patlist n par (brows Pf Qf col k) k)).
    { intros x Hx. apply Hin. rewrite E. apply in_or_app. auto. }
    rewrite (sumr_inb _ l1 i).
    + apply sumr_ext. intros j Hj. apply in_zr in Hj. unfold LL, Yv. destruct (Z.eqb_spec i j); [lia|].
      destruct (inb j l1) eqn:I1.
      * apply inb_true in I1. apply Hl in I1. apply inb_true in I1. rewrite I1.
        destruct (inb j (patlist n par (brows Pf Qf col i) i)); lra.
      * assert (I2 : inb j (patlist n par (brows Pf Qf col k) k) = false).
        { apply inb_false. intros H. apply Hin in H. rewrite E in H. apply in_app_or in H.
          apply inb_false in I1. destruct H as [H|[H|H]]; [tauto|lia|]. apply H2 in H. lia. }
        rewrite I2. lra.
    + pose proof (NoDup_sl RA n col Pf Qf par k) as ND. rewrite E in ND. clear -ND.
      induction l1 as [|x l1 IH]; [constructor|]. cbn [app] in ND. apply NoDup_cons_iff in ND.
      destruct ND as [N1 N2]. constructor; auto. intros H. apply N1, in_or_app. auto.
    + intros x Hx. split; [|apply H1; auto]. apply Hl in Hx.
      apply (pl_in RA n col Pf Qf par HF) in Hx; auto. lia.
  - intros i Hi. apply (rs_L _ _ _ _ _ _ _ _ _ _ (HN k Hk)). apply Hin. auto.
  - rewrite (rs_D _ _ _ _ _ _ _ _ _ _ (HN k Hk)). f_equal. unfold dfold. cbn [car RA fsub fmul].
    rewrite !(fold_sub_all (fun j => (Lv k j * y k j)%R)). f_equal. apply sumr_perm.
    apply Permutation.NoDup_Permutation.
    + apply (pl_nodup RA n col Pf Qf par HF k Hk).
    + apply NoDup_sl.
    + intros x. symmetry. apply Hin.
Qed.

Lemma brows_same {F} (d : F) Ap Ai Ax Ax' Pf Qf k :
  brows Pf Qf (column d Ap Ai Ax') k = brows Pf Qf (column d Ap Ai Ax) k.
Proof. unfold brows, column. rewrite !map_map. reflexivity. Qed.

Lemma forest_same n par rows rows' : (forall k, rows' k = rows k) -> forest n par rows -> forest n par rows'.
Proof.
  intros E [H1 H2 H3]. split; auto.
  - intros k Hk. rewrite E. auto.
  - intros i k Hi Hp Hk. rewrite E. auto.
Qed.

Section Same.
Variable A : Arith.
Variables (n : Z) (c c' : cols (car A)) (Pf Qf par : Z -> Z).
Hypothesis Erows : forall k, brows Pf Qf c' k = brows Pf Qf c k.

Lemma lrows_same k i : lrows A n c' Pf Qf par k i = lrows A n c Pf Qf par k i.
Proof. unfold lrows. apply filter_ext. intros r. rewrite Erows. reflexivity. Qed.

Lemma Lpf_same j : Lpf A n c' Pf Qf par j = Lpf A n c Pf Qf par j.
Proof.
  unfold Lpf. apply sumz_ext. intros i _. unfold lnzf. rewrite <- !zlen_lrows, lrows_same. reflexivity.
Qed.

Lemma sl_same k : sl A n c' Pf Qf par k = sl A n c Pf Qf par k.
Proof. unfold sl. apply filter_ext. intros i. rewrite Erows. reflexivity. Qed.

(** Unmarked rows of the old and of the new factor agree. *)
Lemma unmarked_same (fl : Z -> bool) y Lv Dv y' Lv' Dv' :
  forest n par (brows Pf Qf c) ->
  NumSpec A n c Pf Qf par y Lv Dv -> NumSpec A n c' Pf Qf par y' Lv' Dv' ->
  (forall i, 0 <= i < n -> fl i = true -> par i <> -1 -> fl (par i) = true) ->
  (forall k r, 0 <= k < n -> fl k = false -> 0 <= r <= k -> y0 A c' Pf Qf k r = y0 A c Pf Qf k r) ->
  forall k, 0 <= k < n -> fl k = false ->
    (forall i, In i (patlist n par (brows Pf Qf c k) k) -> y k i = y' k i /\ Lv k i = Lv' k i) /\ Dv k = Dv' k.
Proof.
  intros HF H H' Hcl Hy0.
  assert (Hdown : forall k i, 0 <= k < n -> fl k = false -> In i (patlist n par (brows Pf Qf c k) k) ->
    0 <= i < k /\ fl i = false).
  { intros k i Hk Fk Hi. pose proof (pl_in A n c Pf Qf par HF k i Hk Hi) as Hik. split; auto.
    destruct (fl i) eqn:Fi; auto. exfalso.
    assert (fl k = true); [|congruence].
    eapply (topo_closed par k _ i fl); [apply (fo_topo _ _ _ HF k Hk)| |exact Hi|exact Fi].
    intros x Hx Fx. pose proof (topo_par_le _ _ _ _ (fo_topo _ _ _ HF k Hk) Hx). apply Hcl; auto; lia. }
  assert (G : forall m, 0 <= m -> m <= n -> forall k, 0 <= k < m -> fl k = false ->
     (forall i, In i (patlist n par (brows Pf Qf c k) k) -> y k i = y' k i /\ Lv k i = Lv' k i) /\ Dv k = Dv' k).
  2:{ intros k Hk. apply (G n); lia. }
  apply (zr_ind (fun m => m <= n -> forall k, 0 <= k < m -> fl k = false ->
     (forall i, In i (patlist n par (brows Pf Qf c k) k) -> y k i = y' k i /\ Lv k i = Lv' k i) /\ Dv k = Dv' k)).
  - intros; lia.
  - intros m Hm IH Hmn k Hk Fk. specialize (IH ltac:(lia)).
    destruct (Z.eq_dec k m) as [->|]; [|apply IH; auto; lia].
    pose proof (H m ltac:(lia)) as [A1 A2 A3]. pose proof (H' m ltac:(lia)) as [B1 B2 B3].
    rewrite Erows in B1, B2, B3.
    assert (Hy : forall l1 l2, patlist n par (brows Pf Qf c m) m = l1 ++ l2 -> forall i, In i l1 -> y m i = y' m i).
    { induction l1 as [|x l1 IHl] using rev_ind; intros l2 E i Hi; [destruct Hi|].
      rewrite <- app_assoc in E. simpl in E.
      apply in_app_or in Hi. destruct Hi as [Hi|[<-|[]]]; [eapply IHl; eauto|].
      assert (Hx : 0 <= x < m /\ fl x = false) by (apply Hdown; [lia|auto|]; rewrite E; apply in_elt).
      rewrite (A1 _ _ _ E), (B1 _ _ _ E). unfold yfold. rewrite Hy0 by (auto; lia). rewrite Erows.
      apply fold_left_ext_in. intros s j Hj. destruct (inb j (patlist n par (brows Pf Qf c x) x)) eqn:Ej; auto.
      apply inb_true in Ej. destruct Hx as [Hx Fx]. destruct (IH x ltac:(lia) Fx) as [I1 _].
      destruct (I1 j Ej) as [_ ->]. rewrite (IHl _ E j Hj). reflexivity. }
    assert (Hy' : forall i, In i (patlist n par (brows Pf Qf c m) m) -> y m i = y' m i).
    { intros i Hi. eapply (Hy _ []); [rewrite app_nil_r; reflexivity|auto]. }
    assert (HL : forall i, In i (patlist n par (brows Pf Qf c m) m) -> Lv m i = Lv' m i).
    { intros i Hi. pose proof (A2 i Hi) as E1. pose proof (B2 i Hi) as E2.
      destruct (Hdown m i ltac:(lia) Fk Hi) as [Him Fi].
      rewrite (Hy' i Hi), (proj2 (IH i ltac:(lia) Fi)) in E1. congruence. }
    split; auto. rewrite A3, B3. f_equal. unfold dfold. rewrite Hy0 by (auto; lia).
    apply fold_left_ext_in. intros s j Hj. rewrite (HL j Hj), (Hy' j Hj). reflexivity.
Qed.

End Same.

(** The transposed pattern of the factor lists the rows. *)
Lemma tcol_lcol A n c Pf Qf par Lv k : 0 <= k < n ->
  tcol (lcol A n c Pf Qf par Lv) n k = map (fun j => (j, Lv k j)) (sl A n c Pf Qf par k).
Proof.
  intros Hk. unfold tcol, sl.
  assert (G : forall l, flat_map (fun j => trow j k (lcol A n c Pf Qf par Lv j)) l =
    map (fun j => (j, Lv k j)) (filter (fun i => inb i (patlist n par (brows Pf Qf c k) k)) l)).
  2:{ apply G. }
  induction l as [|j l IH]; [reflexivity|]. cbn [flat_map filter]. rewrite IH.
  assert (Et : trow j k (lcol A n c Pf Qf par Lv j) =
    if inb j (patlist n par (brows Pf Qf c k) k) then [(j, Lv k j)] else []).
  { unfold trow, lcol, lrows. rewrite (zr_app 0 k n), (zr_cons k n) by lia.
    rewrite filter_app, map_app, filter_app, map_app. cbn [filter].
    assert (N : forall a b, ~ (a <= k < b) -> map (fun e : Z * car A => (j, snd e)) (filter (fun e => fst e =? k)
      (map (fun r => (r, Lv r j)) (filter (fun r => inb j (patlist n par (brows Pf Qf c r) r)) (zr a b)))) = []).
    { intros a b Hab.
      assert (G : forall l', (forall x, In x l' -> x <> k) -> filter (fun e : Z * car A => fst e =? k)
        (map (fun r => (r, Lv r j)) (filter (fun r => inb j (patlist n par (brows Pf Qf c r) r)) l')) = []).
      { induction l' as [|x l' IHl]; intros Hl; [reflexivity|]. cbn [filter].
        assert (x <> k) by (apply Hl; left; auto).
        destruct (inb j (patlist n par (brows Pf Qf c x) x)); cbn [map filter fst].
        - destruct (Z.eqb_spec x k); [tauto|]. apply IHl. intros z Hz. apply Hl. right. auto.
        - apply IHl. intros z Hz. apply Hl. right. auto. }
      rewrite G; [reflexivity|]. intros x Hx. apply in_zr in Hx. lia. }
    rewrite N by lia. destruct (inb j (patlist n par (brows Pf Qf c k) k)); cbn [map filter fst app].
    - rewrite Z.eqb_refl. cbn [map snd]. rewrite N by lia. reflexivity.
    - apply N. lia. }
  rewrite Et. destruct (inb j (patlist n par (brows Pf Qf c k) k)); reflexivity.
Qed.

Section Refactor.
Variables (n : Z) (Ap Ai : arr Z) (nz : Z) (P Pinv : option (arr Z)) (Lp Parent Lnz Flag : arr Z).
Hypothesis Hn : 0 <= n.
Hypothesis Hpat : csc_pattern n n Ap Ai nz.
Hypothesis Hord : usable_order n P Pinv.
Hypothesis HLp : zlen Lp = n + 1.
Hypothesis HPa : zlen Parent = n.
Hypothesis HLn : zlen Lnz = n.
Hypothesis HFl : zlen Flag = n.
Variables (Lp' Parent' Lnz' Flag' : arr Z) (Pinv' : option (arr Z)).
Hypothesis Hsym : LDL_symbolic n Ap Ai Lp Parent Lnz Flag P Pinv = Ok (Lp', Parent', Lnz', Flag', Pinv').

Variable A : Arith.
Hypothesis Hdiv : div_ok A.
Variables (Ax Ax' : arr (car A)) (w w1 : numst A) (r1 : Z).
Hypothesis HAx : filled Ax nz.
Hypothesis HAx' : filled Ax' nz.
Hypothesis Hw : work_sizes A n (get 0 Lp' n) w.
(* the factor of the old values *)
Hypothesis Hold : LDL_numeric A n Ap Ai Ax Lp' Parent' w P Pinv' = Ok (r1, w1).
Variables (Lti0 Ltp0 Lti Ltp : arr Z).
Hypothesis HLti0 : zlen Lti0 = get 0 Lp' n.
Hypothesis HLtp0 : zlen Ltp0 = n + 1.
Hypothesis Htrans : Transpose_Row_Count n n (nLi A w1) Lp' Lti0 Ltp0 = Ok (Lti, Ltp).
Variable U : arr Z.
Hypothesis HU : filled U n.
Variable Y : arr (car A).
Hypothesis HY : zlen Y = n.
Hypothesis HY0 : forall i, 0 <= i < n -> ~ marked U n i -> rd Y i = Ok (f0 A).

Local Notation col := (column (f0 A) Ap Ai Ax).
Local Notation col' := (column (f0 A) Ap Ai Ax').
Local Notation Pf := (elim_index P).
Definition flag_of (k : Z) : bool := get 0 U k =? n.

Lemma flag_marked k : 0 <= k < n -> flag_of k = true <-> marked U n k.
Proof.
  intros Hk. destruct (HU k Hk) as [u Eu]. unfold flag_of, marked. rewrite (get_rd 0 U k u Eu), Z.eqb_eq, Eu.
  split; [intros ->; reflexivity|intros H; injection H; auto].
Qed.

(** Everything the run needs, for values that extend the unmarked rows of the old factor. *)
Lemma refactor_run : exists Qf par y Lv Dv,
  isperm n Pf Qf /\ forest n par (brows Pf Qf col) /\ is_vec Parent' n par /\ pget n Pinv' Qf /\ pget n P Pf /\
  Csc Ap Ai Ax' n col' /\ rows_in n n col' /\
  is_vec Lp' (n + 1) (Lpf A n col' Pf Qf par) /\
  NumSpec A n col Pf Qf par y Lv Dv /\
  forall y2 Lv2 Dv2,
  (forall k, 0 <= k < n -> flag_of k = true -> CRow A n col' Pf Qf par k y2 Lv2 Dv2) ->
  (forall k, 0 <= k < n -> flag_of k = false -> Dv2 k = Dv k /\
     forall i, In i (patlist n par (brows Pf Qf col k) k) -> Lv2 k i = Lv k i) ->
  exists st, LDL_row_cache_numeric A n Ap Ai Ax' Ltp Lti (nLi A w1) Lp' (nLx A w1) (nD A w1) Y P Pinv' U = Ok (n, st) /\
    CSt A n col' Pf Qf par flag_of Lv2 Dv2 n st.
Proof.
  destruct (sym_facts n Ap Ai nz P Pinv Lp Parent Lnz Flag Hn Hpat Hord HLp HPa HLn HFl A Ax HAx) as
    [Qf [par [Lp2 [Pa2 [Ln2 [Fl2 [Pi2 [E [C [R [HP [Hg [Hg' [HF [H1 [H2 [H3 H4]]]]]]]]]]]]]]]]].
  rewrite Hsym in E. injection E as <- <- <- <- <-.
  pose proof (numF_spec A n col Pf Qf par HF Hdiv) as HN.
  set (y := fac_y A (numF A n col Pf Qf par n)) in *.
  set (Lv := fac_L A (numF A n col Pf Qf par n)) in *.
  set (Dv := fac_D A (numF A n col Pf Qf par n)) in *.
  destruct (csc_link (f0 A) n n Ap Ai Ax' nz Hn (mkCscArrays _ _ _ _ _ _ _ Hpat HAx')) as [C' [R' _]].
  assert (Erows : forall k, brows Pf Qf col' k = brows Pf Qf col k) by (intros k; apply brows_same).
  assert (HF' : forest n par (brows Pf Qf col')) by (eapply forest_same; eauto).
  assert (HL2 : is_vec Lp' (n + 1) (Lpf A n col' Pf Qf par)).
  { destruct H2 as [L2 R2]. split; auto. intros i Hi. rewrite (Lpf_same A n col col' Pf Qf par Erows). apply R2; auto. }
  exists Qf, par, y, Lv, Dv. do 9 (split; [assumption|]).
  intros y2 Lv2 Dv2 HCR Hun.
  (* the old factor *)
  assert (El : get 0 Lp' n = Lpf A n col Pf Qf par n) by (apply get_rd, H2; lia).
  rewrite El in Hw. destruct Hw as [W1 W2 W3 W4 W5 W6 W7].
  pose proof (LDL_numeric_ok A n col Pf Qf par HF _ _ _ HN Ap Ai Ax Lp' Parent' P Pinv' w Hn C R HP Hg Hg'
    (is_vec_vec _ _ _ H1) (is_vec_vec _ _ _ H2) W1 W2 W3 W4 W5 W6 W7) as HW.
  destruct (wp_ok_inv _ _ _ HW Hold) as [_ HS]. cbn [snd] in HS.
  pose proof (NumSt_Csc A n col Pf Qf par Lv Dv w1 Lp' Hn (is_vec_vec _ _ _ H2) HS) as HC1.
  destruct HS as [S1 [S2 [S3 [S4 [S5 [S6 [S7 [S8 [S9 [S10 [S11 _]]]]]]]]]]].
  (* its transposed pattern *)
  pose proof (Transpose_Row_Count_ok A n n (nLi A w1) Lp' (nLx A w1) (lcol A n col Pf Qf par Lv) Lti0 Ltp0 Hn Hn HC1
    (lcol_rows A n col Pf Qf par Lv) HLtp0) as HT.
  rewrite lcol_start, <- El in HT. specialize (HT HLti0).
  pose proof (wp_ok_inv _ _ _ HT Htrans) as [[T1 T2] [T3 T4]]. clear HT.
  assert (Hsl : forall k, 0 <= k < n -> sl A n col' Pf Qf par k = sl A n col Pf Qf par k)
    by (intros k _; apply (sl_same A n col col' Pf Qf par Erows)).
  pose proof (row_cache_ok A n col' Pf Qf par HF' flag_of (nLi A w1) Lp') as HR.
  assert (G : wp (LDL_row_cache_numeric A n Ap Ai Ax' Ltp Lti (nLi A w1) Lp' (nLx A w1) (nD A w1) Y P Pinv' U)
    (fun r => fst r = n /\ CSt A n col' Pf Qf par flag_of Lv2 Dv2 n (snd r))).
  { eapply HR with (tp := start (tcol (lcol A n col Pf Qf par Lv) n)); clear HR; eauto.
    - intros i Hi. rewrite (Lpf_same A n col col' Pf Qf par Erows), (lrows_same A n col col' Pf Qf par Erows). auto.
    - rewrite (Lpf_same A n col col' Pf Qf par Erows). exact S2.
    - apply is_vec_vec. exact HL2.
    - intros k Hk. rewrite start_succ by lia. rewrite tcol_lcol by auto. rewrite zlen_map, Hsl by auto. reflexivity.
    - intros k Hk t x Hx. rewrite Hsl in Hx by auto. apply (T4 k t x (Lv k x) Hk).
      rewrite tcol_lcol by auto. rewrite nth_error_map, Hx. reflexivity.
    - intros k Hk. destruct (HU k Hk) as [u Eu]. exists u. split; auto. unfold flag_of. rewrite (get_rd 0 U k u Eu). reflexivity.
    - split; [rewrite (Lpf_same A n col col' Pf Qf par Erows); exact S3|]. split; [exact S4|]. split; [exact HY|].
      split; [|split].
      + intros i t r Hi Ht [Hc|Hc].
        2:{ apply nth_error_In in Ht. apply in_lrows in Ht. lia. }
        rewrite (lrows_same A n col col' Pf Qf par Erows) in Ht. rewrite (Lpf_same A n col col' Pf Qf par Erows).
        pose proof (nth_error_In _ _ Ht) as Hin. apply in_lrows in Hin. destruct Hin as [Hr Hin].
        destruct (Hun r Hr Hc) as [_ Hl]. rewrite (Hl i Hin). apply (S10 i Hi).
        unfold Lcell. rewrite nth_error_map, Ht. reflexivity.
      + intros i Hi [Hc|Hc]; [|lia]. destruct (Hun i Hi Hc) as [-> _]. apply S11. auto.
      + intros r Hr [Hc|Hc]; [|lia]. apply HY0; auto. intros Hm. apply flag_marked in Hm; auto. congruence. }
  apply wp_exists in G. destruct G as [[d st] [EG [Ed HSt]]]. cbn [fst snd] in *. subst d. eauto.
Qed.

(** *** Any arithmetic: the run stays inside its arrays and ends. *)
Theorem C65_in_bounds : exists Lx2 D2 Y2,
  LDL_row_cache_numeric A n Ap Ai Ax' Ltp Lti (nLi A w1) Lp' (nLx A w1) (nD A w1) Y P Pinv' U = Ok (n, (Lx2, D2, Y2)) /\
  filled Lx2 (get 0 Lp' n) /\ filled D2 n /\ (forall i, 0 <= i < n -> rd Y2 i = Ok (f0 A)).
Proof.
  destruct refactor_run as [Qf [par [y [Lv [Dv [HP [HF [HPar [Hg' [Hg [C' [R' [HL2 [HN HX]]]]]]]]]]]]]].
  assert (Erows : forall k, brows Pf Qf col' k = brows Pf Qf col k) by (intros k; apply brows_same).
  assert (HF' : forest n par (brows Pf Qf col')) by (eapply forest_same; eauto).
  destruct (cache_exists A n col' Pf Qf par HF' flag_of Lv Dv Hdiv) as [y2 [Lv2 [Dv2 [G1 G2]]]]; auto.
  { intros i Hi _ x. rewrite (rs_D _ _ _ _ _ _ _ _ _ _ (HN i Hi)). apply Hdiv. }
  destruct (HX y2 Lv2 Dv2 G1) as [[[Lx2 D2] Y2] [ER [L1 [L2 [L3 [R1 [R2 R3]]]]]]].
  { intros k Hk Fk. destruct (G2 k Hk Fk) as [Ed El]. split; auto. }
  exists Lx2, D2, Y2. split; [exact ER|]. split; [|split].
  - intros q Hq.
    assert (El : get 0 Lp' n = start (lcol A n col' Pf Qf par Lv2) n) by (rewrite lcol_start; apply get_rd, HL2; lia).
    rewrite El in Hq. destruct (start_decompose _ n q Hn Hq) as [j [t [Hj [Ht ->]]]].
    destruct (nth_error (lrows A n col' Pf Qf par n j) (Z.to_nat t)) as [r|] eqn:Er.
    2:{ apply nth_error_None in Er. unfold lcol in Ht. rewrite zlen_map in Ht. unfold zlen in Ht. lia. }
    exists (Lv2 r j). rewrite lcol_start. replace t with (Z.of_nat (Z.to_nat t)) by lia. apply R1; auto.
    right. apply nth_error_In in Er. apply in_lrows in Er. lia.
  - intros i Hi. exists (Dv2 i). apply R2; auto. right. lia.
  - intros i Hi. apply R3; auto. right. lia.
Qed.

End Refactor.

Lemma pattern_range m n Jc Ir nz j a b : csc_pattern m n Jc Ir nz -> 0 <= j < n ->
  rd Jc j = Ok a -> rd Jc (j + 1) = Ok b -> 0 <= a /\ b <= nz.
Proof.
  intros H Hj Ea Eb.
  assert (G1 : forall t, (t <= Z.to_nat j)%nat -> forall x, rd Jc (Z.of_nat t) = Ok x -> 0 <= x).
  { induction t as [|t IH]; intros Ht x Ex.
    - change (Z.of_nat 0) with 0 in Ex. rewrite (cp_first _ _ _ _ _ H) in Ex. injection Ex as <-. lia.
    - destruct (cp_mono _ _ _ _ _ H (Z.of_nat t) ltac:(lia)) as [u [v [E1 [E2 Hle]]]].
      replace (Z.of_nat t + 1) with (Z.of_nat (S t)) in E2 by lia. rewrite Ex in E2. injection E2 as <-.
      specialize (IH ltac:(lia) u E1). lia. }
  assert (G2 : forall t, (t <= Z.to_nat (n - (j + 1)))%nat -> forall x, rd Jc (n - Z.of_nat t) = Ok x -> x <= nz).
  { induction t as [|t IH]; intros Ht x Ex.
    - replace (n - Z.of_nat 0) with n in Ex by lia. rewrite (cp_last _ _ _ _ _ H) in Ex. injection Ex as <-. lia.
    - destruct (cp_mono _ _ _ _ _ H (n - Z.of_nat (S t)) ltac:(lia)) as [u [v [E1 [E2 Hle]]]].
      replace (n - Z.of_nat (S t) + 1) with (n - Z.of_nat t) in E2 by lia. rewrite Ex in E1. injection E1 as <-.
      specialize (IH ltac:(lia) v E2). lia. }
  split.
  - apply (G1 (Z.to_nat j)); [lia|]. rewrite Z2Nat.id by lia. exact Ea.
  - apply (G2 (Z.to_nat (n - (j + 1)))); [lia|]. rewrite Z2Nat.id by lia.
    replace (n - (n - (j + 1))) with (j + 1) by lia. exact Eb.
Qed.

(** Values scattered by an unmarked step are the old ones. *)
Lemma cover_y0 A n Ap Ai nz (Ax Ax' : arr (car A)) P Pinv' Qf U k r :
  csc_pattern n n Ap Ai nz -> isperm n (elim_index P) Qf -> pget n Pinv' Qf ->
  marks_cover U n Ap Ai Ax Ax' P Pinv' -> 0 <= k < n -> ~ marked U n k -> 0 <= r <= k ->
  y0 A (column (f0 A) Ap Ai Ax') (elim_index P) Qf k r = y0 A (column (f0 A) Ap Ai Ax) (elim_index P) Qf k r.
Proof.
  intros Hpat HP Hg Hc Hk Hm Hr. unfold y0, bcol, column. rewrite !map_map.
  pose proof (pf_range _ _ _ HP k Hk) as HPk.
  destruct (cp_mono _ _ _ _ _ Hpat _ HPk) as [a [b [Ea [Eb Hab]]]].
  rewrite (get_rd 0 Ap _ a Ea), (get_rd 0 Ap _ b Eb).
  assert (Hb : 0 <= a /\ b <= nz) by (eapply pattern_range; eauto).
  assert (G : forall l acc, (forall q, In q l -> a <= q < b) ->
    fold_left (fun acc e => if fst e =? r then fadd A acc (snd e) else acc)
      (map (fun q => (Qf (fst (get 0 Ai q, get (f0 A) Ax' q)), snd (get 0 Ai q, get (f0 A) Ax' q))) l) acc =
    fold_left (fun acc e => if fst e =? r then fadd A acc (snd e) else acc)
      (map (fun q => (Qf (fst (get 0 Ai q, get (f0 A) Ax q)), snd (get 0 Ai q, get (f0 A) Ax q))) l) acc).
  2:{ apply G. intros q Hq. apply in_zr in Hq. lia. }
  induction l as [|q l IH]; intros acc Hl; [reflexivity|]. cbn [map fold_left fst snd].
  assert (Hq : a <= q < b) by (apply Hl; left; auto).
  destruct (cp_rows _ _ _ _ _ Hpat q ltac:(lia)) as [i [Ei Hi]]. rewrite (get_rd 0 Ai q i Ei).
  destruct (Z.eqb_spec (Qf i) r) as [Er|Er].
  - assert (E : rd Ax' q = rd Ax q) by (apply (Hc k q a b i (Qf i)); auto; lia).
    unfold get. rewrite E. apply IH. intros x Hx. apply Hl. right. auto.
  - apply IH. intros x Hx. apply Hl. right. auto.
Qed.

Section Exact.
Variables (n : Z) (Ap Ai : arr Z) (nz : Z) (P Pinv : option (arr Z)) (Lp Parent Lnz Flag : arr Z).
Hypothesis Hn : 0 <= n.
Hypothesis Hpat : csc_pattern n n Ap Ai nz.
Hypothesis Hord : usable_order n P Pinv.
Hypothesis HLp : zlen Lp = n + 1.
Hypothesis HPa : zlen Parent = n.
Hypothesis HLn : zlen Lnz = n.
Hypothesis HFl : zlen Flag = n.
Variables (Lp' Parent' Lnz' Flag' : arr Z) (Pinv' : option (arr Z)).
Hypothesis Hsym : LDL_symbolic n Ap Ai Lp Parent Lnz Flag P Pinv = Ok (Lp', Parent', Lnz', Flag', Pinv').
Variables (Ax Ax' : arr R) (w w' w1 w2 : numst RA) (r1 r2 : Z).
Hypothesis HAx : filled Ax nz.
Hypothesis HAx' : filled Ax' nz.
Hypothesis Hw : work_sizes RA n (get 0 Lp' n) w.
Hypothesis Hw' : work_sizes RA n (get 0 Lp' n) w'.
Hypothesis Hold : LDL_numeric RA n Ap Ai Ax Lp' Parent' w P Pinv' = Ok (r1, w1).
Hypothesis Hnew : LDL_numeric RA n Ap Ai Ax' Lp' Parent' w' P Pinv' = Ok (r2, w2).
Variables (Lti0 Ltp0 Lti Ltp : arr Z).
Hypothesis HLti0 : zlen Lti0 = get 0 Lp' n.
Hypothesis HLtp0 : zlen Ltp0 = n + 1.
Hypothesis Htrans : Transpose_Row_Count n n (nLi RA w1) Lp' Lti0 Ltp0 = Ok (Lti, Ltp).
Variable U : arr Z.
Hypothesis HU : filled U n.
Hypothesis Hclosed : marks_closed U Parent' n.
Hypothesis Hcover : marks_cover U n Ap Ai Ax Ax' P Pinv'.
Variable Y : arr R.
Hypothesis HY : zlen Y = n.
Hypothesis HY0 : forall i, 0 <= i < n -> ~ marked U n i -> rd Y i = Ok 0%R.

(** *** Exact arithmetic: the updated arrays are those of a factorisation from scratch. *)
Theorem C65_refactor : exists Lx2 D2 Y2,
  LDL_row_cache_numeric RA n Ap Ai Ax' Ltp Lti (nLi RA w1) Lp' (nLx RA w1) (nD RA w1) Y P Pinv' U = Ok (n, (Lx2, D2, Y2)) /\
  (forall q, 0 <= q < get 0 Lp' n -> exists v r, rd Lx2 q = Ok v /\ rd (nLx RA w2) q = Ok v /\
     rd (nLi RA w1) q = Ok r /\ rd (nLi RA w2) q = Ok r) /\
  (forall i, 0 <= i < n -> exists d, rd D2 i = Ok d /\ rd (nD RA w2) i = Ok d) /\
  (forall i, 0 <= i < n -> rd Y2 i = Ok 0%R).
Proof.
  destruct (refactor_run n Ap Ai nz P Pinv Lp Parent Lnz Flag Hn Hpat Hord HLp HPa HLn HFl Lp' Parent' Lnz' Flag' Pinv' Hsym
    RA div_ok_R Ax Ax' w w1 r1 HAx HAx' Hw Hold Lti0 Ltp0 Lti Ltp HLti0 HLtp0 Htrans U HU Y HY HY0)
    as [Qf [par [y [Lv [Dv [HP [HF [HPar [Hg' [Hg [C' [R' [HL2 [HN HX]]]]]]]]]]]]]].
  set (col := column (f0 RA) Ap Ai Ax) in *. set (col' := column (f0 RA) Ap Ai Ax') in *. set (Pf := elim_index P) in *.
  assert (Erows : forall k, brows Pf Qf col' k = brows Pf Qf col k) by (intros k; apply brows_same).
  assert (HF' : forest n par (brows Pf Qf col')) by (eapply forest_same; eauto).
  pose proof (numF_spec RA n col' Pf Qf par HF' div_ok_R) as HN'.
  set (y2 := fac_y RA (numF RA n col' Pf Qf par n)) in *.
  set (Lv2 := fac_L RA (numF RA n col' Pf Qf par n)) in *.
  set (Dv2 := fac_D RA (numF RA n col' Pf Qf par n)) in *.
  (* the new factor *)
  assert (El : get 0 Lp' n = Lpf RA n col' Pf Qf par n) by (apply get_rd, HL2; lia).
  rewrite El in Hw'. destruct Hw' as [W1 W2 W3 W4 W5 W6 W7].
  pose proof (LDL_numeric_ok RA n col' Pf Qf par HF' _ _ _ HN' Ap Ai Ax' Lp' Parent' P Pinv' w' Hn C' R' HP Hg Hg'
    (is_vec_vec _ _ _ HPar) (is_vec_vec _ _ _ HL2) W1 W2 W3 W4 W5 W6 W7) as HW.
  destruct (wp_ok_inv _ _ _ HW Hnew) as [_ HS]. cbn [snd] in HS.
  destruct HS as [_ [_ [_ [_ [_ [_ [_ [_ [S9 [S10 [S11 _]]]]]]]]]]].
  assert (Hnm : forall k, 0 <= k < n -> flag_of n U k = false -> ~ marked U n k).
  { intros k Hk Fk Hm. apply (flag_marked n U HU k Hk) in Hm. congruence. }
  destruct (HX y2 Lv2 Dv2) as [[[Lx2 D2] Y2] [ER [L1 [L2 [L3 [R1 [R2 R3]]]]]]].
  { intros k Hk _. apply NumSpec_CRow; auto. }
  { intros k Hk Fk.
    destruct (unmarked_same RA n col col' Pf Qf par Erows (flag_of n U) y Lv Dv y2 Lv2 Dv2 HF HN HN') with (k := k) as [G1 G2]; auto.
    - intros i Hi Fi Hp. apply (flag_marked n U HU).
      + destruct (fo_par _ _ _ HF i Hi); [tauto|lia].
      + apply (Hclosed i (par i)); auto; [apply (flag_marked n U HU); auto|apply HPar; auto].
    - intros j r Hj Fj Hr. eapply cover_y0; eauto.
    - split; [auto|]. intros i Hi. destruct (G1 i Hi). auto. }
  (* old pattern = new pattern *)
  assert (HLi1 : forall i, 0 <= i < n -> holds (nLi RA w1) (Lpf RA n col' Pf Qf par i) (lrows RA n col' Pf Qf par n i)).
  { intros i Hi. rewrite (Lpf_same RA n col col' Pf Qf par Erows), (lrows_same RA n col col' Pf Qf par Erows).
    destruct (csc_link (f0 RA) n n Ap Ai Ax nz Hn (mkCscArrays _ _ _ _ _ _ _ Hpat HAx)) as [C0 [R0 _]].
    assert (El0 : get 0 Lp' n = Lpf RA n col Pf Qf par n).
    { rewrite El. apply (Lpf_same RA n col col' Pf Qf par Erows). }
    rewrite El0 in Hw. destruct Hw as [V1 V2 V3 V4 V5 V6 V7].
    assert (HL0 : vec Lp' (n + 1) (Lpf RA n col Pf Qf par)).
    { intros j Hj. rewrite <- (Lpf_same RA n col col' Pf Qf par Erows). apply HL2. auto. }
    pose proof (LDL_numeric_ok RA n col Pf Qf par HF _ _ _ HN Ap Ai Ax Lp' Parent' P Pinv' w Hn C0 R0 HP Hg Hg'
      (is_vec_vec _ _ _ HPar) HL0 V1 V2 V3 V4 V5 V6 V7) as HW0.
    destruct (wp_ok_inv _ _ _ HW0 Hold) as [_ HS0]. cbn [snd] in HS0.
    destruct HS0 as [_ [_ [_ [_ [_ [_ [_ [_ [T9 _]]]]]]]]]. apply T9. auto. }
  exists Lx2, D2, Y2. split; [exact ER|]. split; [|split].
  - intros q Hq.
    rewrite El, <- (lcol_start RA n col' Pf Qf par Lv2) in Hq.
    destruct (start_decompose _ n q Hn Hq) as [j [t [Hj [Ht ->]]]].
    destruct (nth_error (lrows RA n col' Pf Qf par n j) (Z.to_nat t)) as [r|] eqn:Er.
    2:{ apply nth_error_None in Er. unfold lcol in Ht. rewrite zlen_map in Ht. unfold zlen in Ht. lia. }
    exists (Lv2 r j), r. rewrite lcol_start. replace t with (Z.of_nat (Z.to_nat t)) by lia.
    pose proof (nth_error_In _ _ Er) as Hin. apply in_lrows in Hin.
    split; [apply R1; auto; right; lia|]. split; [|split].
    + apply (S10 j Hj). unfold Lcell. rewrite nth_error_map, Er. reflexivity.
    + apply (HLi1 j Hj). exact Er.
    + apply (S9 j Hj). exact Er.
  - intros i Hi. exists (Dv2 i). split; [apply R2; auto; right; lia|apply S11; auto].
  - intros i Hi. apply R3; auto. right. lia.
Qed.

End Exact.

Print Assumptions C65_in_bounds.
Print Assumptions C65_refactor.
