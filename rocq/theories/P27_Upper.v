(** Property C67: formkktmatrix_U builds the upper triangle of the matrix that formkktmatrix_full builds. *)
From Coq Require Import ZArith Reals List Lia Lra Bool.
From Verif Require Import Res Arith Lists MSparse Csc SemVec Flat TransposeProofs KktProofs MSolver MInactive Setup Spec SpecLink Demo
  P1_Sparse.
Import ListNotations.
Open Scope Z_scope.
Open Scope res_scope.

(** Entries of column [j] at or above the diagonal. *)
Definition upper {F} (j : Z) (l : list (Z * F)) : list (Z * F) := filter (fun e => fst e <=? j) l.

Lemma upper_le {F} j (l : list (Z * F)) : zlen (upper j l) <= zlen l.
Proof.
  unfold upper. induction l as [|e l IH]; cbn [filter]; [lia|].
  destruct (fst e <=? j); rewrite ?zlen_cons; lia.
Qed.

Lemma upper_all {F} j (l : list (Z * F)) : (forall e, In e l -> fst e <= j) -> upper j l = l.
Proof.
  intros H. unfold upper. induction l as [|e l IH]; cbn [filter]; auto.
  destruct (Z.leb_spec (fst e) j) as [_|G].
  - rewrite IH; auto. intros x Hx. apply H. right; auto.
  - specialize (H e (or_introl eq_refl)). lia.
Qed.

Lemma upper_none {F} j (l : list (Z * F)) : (forall e, In e l -> j < fst e) -> upper j l = [].
Proof.
  intros H. unfold upper. induction l as [|e l IH]; cbn [filter]; auto.
  destruct (Z.leb_spec (fst e) j) as [G|_].
  - specialize (H e (or_introl eq_refl)). lia.
  - apply IH. intros x Hx. apply H. right; auto.
Qed.

Section WithArith.
Variable A : Arith.
Notation F := (car A).

Lemma append_upper_ok M n col i (Ki : arr Z) (Kx : arr F) k cap l :
  Csc (jc M) (ir M) (pr M) n col -> 0 <= i < n ->
  logged Ki Kx k cap l -> zlen l + zlen (upper i (col i)) <= cap ->
  wp (append_upper A M i (Ki, Kx, k))
     (fun st => let '(Ki, Kx, k) := st in logged Ki Kx k cap (l ++ upper i (col i))).
Proof.
  intros C Hi L Hc. unfold append_upper.
  wb. eapply wp_rd; [apply (csc_jc _ _ _ _ _ C); lia|].
  wb. eapply wp_rd; [apply (csc_jc _ _ _ _ _ C); lia|].
  eapply (wp_col _ _ _ _ _ i (fun done st => let '(Ki, Kx, k) := st in
            logged Ki Kx k cap (l ++ upper i done))); eauto.
  - simpl. rewrite app_nil_r. auto.
  - intros done r v rest [[Ki' Kx'] k'] E Er Ev L'.
    pose proof L' as [L1 L2 L3 _ _]. rewrite zlen_app in L3.
    pose proof (zlen_nonneg l). pose proof (zlen_nonneg (upper i done)).
    assert (Eu : upper i (done ++ [(r, v)]) = upper i done ++ if r <=? i then [(r, v)] else []).
    { unfold upper. rewrite filter_app. f_equal. }
    assert (Hlen : zlen (upper i (done ++ [(r, v)])) <= zlen (upper i (col i))).
    { rewrite E. replace (done ++ (r, v) :: rest) with ((done ++ [(r, v)]) ++ rest) by (rewrite <- app_assoc; reflexivity).
      unfold upper. rewrite (filter_app _ _ rest), zlen_app.
      pose proof (zlen_nonneg (filter (fun e => fst e <=? i) rest)). lia. }
    rewrite Eu, zlen_app in Hlen. wb. eapply wp_rd; [eauto|]. rewrite Eu.
    destruct (r <=? i).
    + rewrite zlen_cons, zlen_nil in Hlen.
      wb. eapply wp_mono; [apply wp_wr_eq; lia|]. intros Ki2 W1.
      wb. eapply wp_rd; [eauto|]. wb. eapply wp_mono; [apply wp_wr_eq; lia|]. intros Kx2 W2. wok.
      rewrite app_assoc. eapply logged_push; eauto.
    + wok. rewrite app_nil_r. exact L'.
Qed.

(** Column [j] of the upper triangle of [P G'; G -I]. *)
Definition up_col n (pcol gcol : cols F) (j : Z) : list (Z * F) :=
  upper j (kkt_col A n 0 pcol (fun _ => []) gcol (minus_one A) j).

Lemma up_col_low n m pcol (gcol : cols F) j : rows_in m n gcol -> 0 <= j < n -> up_col n pcol gcol j = upper j (pcol j).
Proof.
  intros R Hj. unfold up_col, kkt_col. destruct (Z.ltb_spec j n); [|lia]. cbn [shift map app].
  unfold upper at 1. rewrite filter_app.
  fold (upper j (shift (n + 0) (gcol j))). rewrite (upper_none j (shift (n + 0) (gcol j))); [apply app_nil_r|].
  intros [r v] Hin. apply in_shift in Hin. apply (R j) in Hin; cbn [fst]; lia.
Qed.

Lemma up_col_high n pcol (gcol : cols F) i : 0 <= n -> 0 <= i ->
  up_col n pcol gcol (n + i) = match tcol gcol n i with [] => [] | c => c ++ [(n + i, fopp A (f1 A))] end.
Proof.
  intros Hn Hi. unfold up_col, kkt_col. destruct (Z.ltb_spec (n + i) n); [lia|].
  destruct (Z.ltb_spec (n + i) (n + 0)); [lia|]. replace (n + i - n - 0) with i by lia.
  apply upper_all. destruct (tcol gcol n i) as [|e c] eqn:E; [intros ? []|]. rewrite <- E.
  intros [r v] Hin. apply in_app_iff in Hin. destruct Hin as [Hin|[Hin|[]]].
  - apply in_tcol in Hin. cbn [fst]. lia.
  - injection Hin as <- <-. cbn [fst]. lia.
Qed.

Lemma start_le (c1 c2 : cols F) n : (forall j, zlen (c1 j) <= zlen (c2 j)) -> start c1 n <= start c2 n.
Proof.
  intros H. unfold start. induction (zr 0 n) as [|x l IH]; cbn [sumz]; [lia|]. specialize (H x). lia.
Qed.

Lemma formkktmatrix_U_ok P Gt K n m cap pcol gcol :
  Repr P n n pcol -> rows_in m n gcol -> Repr Gt n m (tcol gcol n) ->
  zlen (jc K) = n + m + 1 -> zlen (ir K) = cap -> zlen (pr K) = cap ->
  start (up_col n pcol gcol) (n + m) <= cap ->
  wp (formkktmatrix_U A P Gt K)
     (fun K' => Csc (jc K') (ir K') (pr K') (n + m) (up_col n pcol gcol) /\
        sn K' = sn K /\ sm K' = sm K /\ zlen (jc K') = n + m + 1 /\ zlen (ir K') = cap /\ zlen (pr K') = cap).
Proof.
  intros RP RG RGt LJ LI LX Hcap. set (col := up_col n pcol gcol) in *.
  assert (Hn : 0 <= n) by apply RP. assert (Hm : 0 <= m) by apply RGt.
  pose proof (rp_csc _ _ _ _ RP) as CP. pose proof (rp_csc _ _ _ _ RGt) as CGt.
  assert (Hsub : forall j, 0 <= j <= n + m -> start col j <= cap).
  { intros j Hj. eapply Z.le_trans; [apply (start_mono col j (n + m)); lia|auto]. }
  set (good := fun (j : Z) (st : arr Z * (arr Z * arr F * Z)) => let '(kjc, (kir, kpr, k)) := st in
     zlen kjc = n + m + 1 /\ (forall i, 0 <= i <= j -> rd kjc i = Ok (start col i)) /\
     logged kir kpr k cap (flat col j)).
  assert (Hpush : forall j kjc kjc' kir kpr k, 0 <= j < n + m ->
      zlen kjc = n + m + 1 -> (forall i, 0 <= i <= j -> rd kjc i = Ok (start col i)) ->
      logged kir kpr k cap (flat col j ++ col j) ->
      wr kjc (j + 1) k = Ok kjc' -> good (j + 1) (kjc', (kir, kpr, k))).
  { intros j kjc kjc' kir kpr k Hj L R HL W. pose proof (lg_k _ _ _ _ _ HL) as Ek. rewrite zlen_app, zlen_flat in Ek.
    repeat split.
    - rewrite (wr_len _ _ _ _ W); auto.
    - intros i Hi. rewrite (rd_wr _ _ _ _ _ W). destruct (Z.eqb_spec i (j + 1)) as [->|].
      + rewrite start_succ by lia. congruence.
      + apply R; lia.
    - apply HL.
    - apply HL.
    - rewrite flat_succ by lia. apply HL.
    - rewrite flat_succ by lia. apply HL.
    - rewrite flat_succ by lia. apply HL. }
  unfold formkktmatrix_U. rewrite (rp_sn _ _ _ _ RP), (rp_sn _ _ _ _ RGt).
  wb. apply wp_wr; [lia|]. intros kjc0 L0 R0.
  wb. eapply (wp_for_le good); auto.
  { repeat split; try lia.
    - intros i Hi. assert (i = 0) by lia. subst. rewrite R0. reflexivity.
    - intros [|t]; discriminate.
    - intros [|t]; discriminate. }
  { intros i [kjc [[kir kpr] k]] Hi [G1 [G2 G3]].
    pose proof (Hsub (i + 1) ltac:(lia)) as HB. rewrite start_succ in HB by lia.
    assert (Ec : col i = upper i (pcol i)) by (apply (up_col_low n m); auto). rewrite Ec in HB.
    wb. eapply wp_mono; [eapply (append_upper_ok P n pcol); eauto; rewrite zlen_flat; lia|].
    rewrite <- Ec. intros [[kir1 kpr1] k1] L1. wb. eapply wp_mono; [apply wp_wr_eq; lia|]. intros kjc2 W. wok.
    eapply Hpush; eauto. lia. }
  intros [kjc st] G2. wb. eapply (wp_for_le (fun i st => good (n + i) st)); auto.
  { rewrite Z.add_0_r. exact G2. }
  { intros i [kjc2 [[kir kpr] k]] Hi [G3 [G4 G5]].
    pose proof (up_col_high n pcol gcol i Hn ltac:(lia)) as Ec. fold col in Ec.
    wb. eapply wp_mono.
    { eapply (append_col_diag_ok A Gt m (tcol gcol n) i n); eauto.
      rewrite <- Ec, zlen_flat, <- start_succ by lia. apply Hsub; lia. }
    rewrite <- Ec. intros [[kir2 kpr2] k2] L2. wb.
    eapply wp_mono; [apply wp_wr_eq; lia|]. intros kjc3 W. wok.
    replace (n + (i + 1)) with (n + i + 1) by lia. eapply (Hpush (n + i)); eauto; [lia|].
    replace (n + i + 1) with (i + 1 + n) by lia. exact W. }
  intros [kjc3 [[kir kpr] k]] [G3 [G4 G5]]. wok. cbn [jc ir pr sn sm].
  split; [eapply logged_csc; eauto|]. split; auto. split; auto. split; auto. split; apply G5.
Qed.

(** ** C67 *)

(** Arrays large enough for all of P, G and the diagonal are large enough; no cell outside is touched; and
    column by column, in storage order, the result holds the entries of formkktmatrix_full with
    row <= column. *)
Theorem C67_upper_triangle n m Pjc Pir Ppr nzP Gjc Gir Gpr nzG Gt K K1 K1' : 0 <= n -> 0 <= m ->
  csc_arrays n n Pjc Pir Ppr nzP -> csc_arrays m n Gjc Gir Gpr nzG ->
  let P := mkSmat Pjc Pir Ppr n n nzP in let G := mkSmat Gjc Gir Gpr n m nzG in
  setup_transpose A G = Ok Gt ->
  zlen (jc K) = n + m + 1 -> nzP + nzG + m <= zlen (ir K) -> zlen (pr K) = zlen (ir K) ->
  sn K1 = n + m -> sm K1 = n + m -> nnz K1 = zlen (ir K1) -> zlen (jc K1) = n + m + 1 ->
  nzP + 2 * nzG + m <= zlen (ir K1) -> zlen (pr K1) = zlen (ir K1) ->
  formkktmatrix_full A P G None Gt K1 = Ok K1' ->
  exists K' nz, formkktmatrix_U A P Gt K = Ok K' /\ nz <= nzP + nzG + m /\
    csc_arrays (n + m) (n + m) (jc K') (ir K') (pr K') nz /\
    (forall c, 0 <= c < n + m ->
       column (f0 A) (jc K') (ir K') (pr K') c = upper c (column (f0 A) (jc K1') (ir K1') (pr K1') c)) /\
    (forall a c v, 0 <= c < n + m -> stored (jc K') (ir K') (pr K') a c v <->
       a <= c /\ stored (jc K1') (ir K1') (pr K1') a c v).
Proof.
  intros Hn Hm HP HG P G HT LJ LI LX S1 S2 S3 LJ1 LI1 LX1 E1.
  destruct (csc_link (f0 A) _ _ _ _ _ _ Hn HP) as [CP [RP SP]].
  destruct (csc_link (f0 A) _ _ _ _ _ _ Hn HG) as [CG [RG SG]].
  set (pcol := column (f0 A) Pjc Pir Ppr) in *. set (gcol := column (f0 A) Gjc Gir Gpr) in *.
  assert (RepP : Repr P n n pcol) by (split; auto).
  assert (RepG : Repr G m n gcol) by (split; auto).
  pose proof (setup_transpose_ok A G m n gcol RepG) as H. rewrite HT in H. destruct H as [RepGt _ _ _].
  assert (Hra : rows_in 0 n (fun _ => @nil (Z * F))) by (intros j r v _ []).
  pose proof (start_kkt_total A n m 0 pcol (fun _ => []) gcol (minus_one A) Hn Hm (Z.le_refl 0) Hra RG) as HB.
  assert (Z0 : start (fun _ : Z => @nil (Z * F)) n = 0) by (apply sumz_zero; auto). rewrite Z0 in HB.
  pose proof (formkktmatrix_full_ok A P G None Gt K1 n m 0 (zlen (ir K1)) pcol (fun _ => []) gcol RepP RepG RepGt
    (conj eq_refl eq_refl)) as HF. replace (n + 0 + m) with (n + m) in * by lia.
  specialize (HF S1 S2 S3 LJ1 eq_refl LX1 ltac:(lia)). rewrite E1 in HF. cbn [wp] in HF.
  assert (Hcount : start (up_col n pcol gcol) (n + m) <= nzP + nzG + m).
  { rewrite <- SP, <- SG. unfold start at 1. rewrite (zr_app 0 n (n + m)), sumz_app by lia.
    assert (B1 : sumz (fun j => zlen (up_col n pcol gcol j)) (zr 0 n) <= start pcol n).
    { unfold start. assert (Q : forall l, (forall x, In x l -> 0 <= x < n) ->
        sumz (fun j => zlen (up_col n pcol gcol j)) l <= sumz (fun j => zlen (pcol j)) l).
      { induction l as [|x l IH]; intros Hl; cbn [sumz]; [lia|].
        assert (IH' := IH ltac:(intros; apply Hl; right; auto)).
        rewrite (up_col_low n m) by (auto; apply Hl; left; auto). pose proof (upper_le x (pcol x)). lia. }
      apply Q. intros x Hx. apply in_zr in Hx. lia. }
    assert (B2 : sumz (fun j => zlen (up_col n pcol gcol j)) (zr n (n + m)) <= start gcol n + m).
    { rewrite <- (start_tcol gcol m n RG Hn). unfold start.
      replace (zr n (n + m)) with (zr (0 + n) (m + n)) by (f_equal; lia). rewrite sumz_shift.
      assert (Q : forall l, (forall x, In x l -> 0 <= x) ->
        sumz (fun x => zlen (up_col n pcol gcol (x + n))) l <= sumz (fun j => zlen (tcol gcol n j)) l + zlen l).
      { induction l as [|x l IH]; intros Hl; cbn [sumz]; [unfold zlen; cbn [length]; lia|].
        assert (IH' := IH ltac:(intros; apply Hl; right; auto)). rewrite zlen_cons.
        rewrite (Z.add_comm x n), (up_col_high n pcol gcol x Hn) by (apply Hl; left; auto).
        destruct (tcol gcol n x) as [|e c]; [rewrite zlen_nil; lia|]. rewrite zlen_app, !zlen_cons, zlen_nil. lia. }
      eapply Z.le_trans; [apply Q|].
      - intros x Hx. apply in_zr in Hx. lia.
      - rewrite zlen_zr. lia. }
    lia. }
  pose proof (formkktmatrix_U_ok P Gt K n m (zlen (ir K)) pcol gcol RepP RG RepGt LJ eq_refl LX ltac:(lia)) as HU.
  apply wp_exists in HU. destruct HU as [K' [E [C [F1 [F2 [F3 [F4 F5]]]]]]].
  assert (HR : rows_in (n + m) (n + m) (up_col n pcol gcol)).
  { intros j r v Hj Hin. unfold up_col, upper in Hin. apply filter_In in Hin. destruct Hin as [Hin _].
    pose proof (kkt_col_rows A n m 0 pcol (fun _ => []) gcol (minus_one A) Hn Hm (Z.le_refl 0) RP Hra RG) as Q.
    replace (n + 0 + m) with (n + m) in Q by lia. apply (Q j r v Hj Hin). }
  exists K', (start (up_col n pcol gcol) (n + m)). split; auto. split; auto.
  split; [apply Csc_arrays; auto; lia|].
  pose proof (kr_csc _ _ _ _ HF) as C1. split.
  - intros c Hc. rewrite (Csc_column (f0 A) _ _ _ _ _ c C Hc), (Csc_column (f0 A) _ _ _ _ _ c C1 Hc). reflexivity.
  - intros a c v Hc. rewrite (Csc_stored _ _ _ _ _ a c v C Hc), (Csc_stored _ _ _ _ _ a c v C1 Hc).
    unfold up_col, upper. rewrite filter_In. cbn [fst]. rewrite Z.leb_le. tauto.
Qed.

End WithArith.

Lemma upper_sum a c (l : list (Z * R)) :
  sumr (fun e => if fst e =? a then snd e else 0%R) (upper c l) =
  if a <=? c then sumr (fun e => if fst e =? a then snd e else 0%R) l else 0%R.
Proof.
  unfold upper. induction l as [|[r v] l IH]; cbn [filter sumr fst snd].
  - destruct (a <=? c); reflexivity.
  - destruct (Z.leb_spec r c) as [G|G]; cbn [sumr fst snd]; rewrite IH; destruct (Z.leb_spec a c); destruct (Z.eqb_spec r a); try lia; try lra.
Qed.

(** In exact arithmetic: the entries of the upper triangle, and zeros below the diagonal. *)
Theorem C67_entries n m Pjc Pir Ppr nzP Gjc Gir Gpr nzG Gt K K' K1 K1' : 0 <= n -> 0 <= m ->
  csc_arrays n n Pjc Pir Ppr nzP -> csc_arrays m n Gjc Gir Gpr nzG ->
  let P := mkSmat Pjc Pir Ppr n n nzP in let G := mkSmat Gjc Gir Gpr n m nzG in
  setup_transpose RA G = Ok Gt ->
  zlen (jc K) = n + m + 1 -> nzP + nzG + m <= zlen (ir K) -> zlen (pr K) = zlen (ir K) ->
  sn K1 = n + m -> sm K1 = n + m -> nnz K1 = zlen (ir K1) -> zlen (jc K1) = n + m + 1 ->
  nzP + 2 * nzG + m <= zlen (ir K1) -> zlen (pr K1) = zlen (ir K1) ->
  formkktmatrix_full RA P G None Gt K1 = Ok K1' -> formkktmatrix_U RA P Gt K = Ok K' ->
  forall a c, 0 <= c < n + m -> mat_entry (jc K') (ir K') (pr K') a c =
    if a <=? c then mat_entry (jc K1') (ir K1') (pr K1') a c else 0%R.
Proof.
  intros Hn Hm HP HG P G HT LJ LI LX S1 S2 S3 LJ1 LI1 LX1 E1 EU a c Hc.
  destruct (C67_upper_triangle RA n m Pjc Pir Ppr nzP Gjc Gir Gpr nzG Gt K K1 K1' Hn Hm HP HG HT LJ LI LX S1 S2 S3 LJ1 LI1 LX1 E1)
    as [K2 [nz [E2 [_ [_ [HC _]]]]]].
  assert (K2 = K') by (unfold P in *; congruence). subst K2. specialize (HC c Hc).
  unfold mat_entry. change (f0 RA) with 0%R in HC. cbn [car RA] in *. rewrite HC. apply upper_sum.
Qed.

(** Case: n = 2, m = 2, P = [2 1; 1 3], G with rows [1 0] and [0 0].  Column 3 stays empty: the -1 of an
    inequality without coefficients is missing, as in formkktmatrix_full. *)
Definition gap_P (A : Arith) : smat (car A) := mkSmat (zs [0; 2; 4]) (zs [0; 1; 0; 1]) (fs A [2; 1; 1; 3]) 2 2 4.
Definition gap_G (A : Arith) : smat (car A) := mkSmat (zs [0; 1; 1]) (zs [0]) (fs A [1]) 2 2 1.
Definition gap_K (A : Arith) cap : smat (car A) :=
  mkSmat (malloc Z 5) (malloc Z cap) (malloc (car A) cap) 4 4 cap.

Ltac csc_known :=
  constructor; [constructor; [reflexivity| |reflexivity|]|];
  [intros j Hj; enum j; do 2 eexists; (split; [reflexivity|split; [reflexivity|lia]])
  |intros k Hk; enum k; eexists; (split; [reflexivity|lia])
  |intros k Hk; enum k; eexists; reflexivity].

Lemma C67_case A : exists Gt K' K1',
  setup_transpose A (gap_G A) = Ok Gt /\ formkktmatrix_full A (gap_P A) (gap_G A) None Gt (gap_K A 8) = Ok K1' /\
  formkktmatrix_U A (gap_P A) Gt (gap_K A 7) = Ok K' /\
  (forall a c v, 0 <= c < 4 -> stored (jc K') (ir K') (pr K') a c v <-> a <= c /\ stored (jc K1') (ir K1') (pr K1') a c v) /\
  jc K' = zs [0; 1; 3; 5; 5] /\ (forall v, ~ stored (jc K') (ir K') (pr K') 3 3 v).
Proof.
  assert (HP : csc_arrays 2 2 (jc (gap_P A)) (ir (gap_P A)) (pr (gap_P A)) 4) by csc_known.
  assert (HG : csc_arrays 2 2 (jc (gap_G A)) (ir (gap_G A)) (pr (gap_G A)) 1) by csc_known.
  assert (HT : exists Gt, setup_transpose A (gap_G A) = Ok Gt) by (eexists; reflexivity). destruct HT as [Gt HT].
  assert (HF : exists K1', formkktmatrix_full A (gap_P A) (gap_G A) None Gt (gap_K A 8) = Ok K1').
  { injection HT as <-. eexists. reflexivity. }
  destruct HF as [K1' HF].
  destruct (C67_upper_triangle A 2 2 _ _ _ 4 _ _ _ 1 Gt (gap_K A 7) (gap_K A 8) K1' ltac:(lia) ltac:(lia) HP HG HT eq_refl (fun H => ltac:(discriminate H))
    eq_refl eq_refl eq_refl eq_refl eq_refl (fun H => ltac:(discriminate H)) eq_refl HF) as [K' [nz [E [_ [_ [_ HS]]]]]].
  exists Gt, K', K1'. split; [exact HT|]. split; [exact HF|]. split; [exact E|]. split; [exact HS|].
  injection HT as <-. injection E as <-. split; [reflexivity|].
  intros v [a [b [k [E1 [E2 [Hk _]]]]]]. cbn in E1, E2. injection E1 as <-. injection E2 as <-. lia.
Qed.

Print Assumptions C67_upper_triangle.
Print Assumptions C67_entries.
Print Assumptions C67_case.
