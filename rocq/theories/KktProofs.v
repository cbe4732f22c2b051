(** Assembly and update of the KKT matrix (properties C04, C05). *)
From Coq Require Import ZArith Reals List Lia Lra Bool.
From Verif Require Import Res Arith Lists MSparse Csc Flat SemVec TransposeProofs.
Import ListNotations.
Open Scope Z_scope.
Open Scope res_scope.

Definition shift {F} (off : Z) (l : list (Z * F)) : list (Z * F) := map (fun e => (off + fst e, snd e)) l.

Lemma zlen_shift {F} off (l : list (Z * F)) : zlen (shift off l) = zlen l.
Proof. apply zlen_map. Qed.

Lemma shift_app {F} off (l1 l2 : list (Z * F)) : shift off (l1 ++ l2) = shift off l1 ++ shift off l2.
Proof. apply map_app. Qed.

Lemma in_shift {F} off (l : list (Z * F)) r v : In (r, v) (shift off l) <-> In (r - off, v) l.
Proof.
  unfold shift. rewrite in_map_iff. split.
  - intros [[a b] [E H]]. simpl in E. inversion E; subst. replace (off + a - off) with a by lia. auto.
  - intros H. exists (r - off, v). split; auto. simpl. f_equal. lia.
Qed.

(** The structure that holds the KKT matrix: blocks of [cap] entries, the first
    [start col N] of them in use. *)
Record KktRep {F} (K : smat F) (N cap : Z) (col : cols F) : Prop := mkKktRep {
  kr_N : 0 <= N;
  kr_sn : sn K = N;
  kr_sm : sm K = N;
  kr_nnz : nnz K = cap;
  kr_jc : zlen (jc K) = N + 1;
  kr_ir : zlen (ir K) = cap;
  kr_pr : zlen (pr K) = cap;
  kr_csc : Csc (jc K) (ir K) (pr K) N col;
  kr_row : rows_in N N col;
  kr_cap : start col N <= cap
}.

Section WithArith.
Variable A : Arith.
Notation F := (car A).

(** Column [j] of the matrix that is built from P, A, G; [d i] is the diagonal entry appended to the
    i-th row of G (if that row has an entry). *)
Definition kkt_col (n p : Z) (pcol acol gcol : cols F) (d : Z -> F) (j : Z) : list (Z * F) :=
  if j <? n then pcol j ++ shift n (acol j) ++ shift (n + p) (gcol j)
  else if j <? n + p then tcol acol n (j - n)
  else match tcol gcol n (j - n - p) with
       | [] => []
       | l => l ++ [(j, d (j - n - p))]
       end.

Lemma append_col_ok M n col i off (Ki : arr Z) (Kx : arr F) k cap l :
  Csc (jc M) (ir M) (pr M) n col -> 0 <= i < n ->
  logged Ki Kx k cap l -> zlen l + zlen (col i) <= cap ->
  wp (append_col A M i off (Ki, Kx, k))
     (fun st => let '(Ki, Kx, k) := st in logged Ki Kx k cap (l ++ shift off (col i))).
Proof.
  intros C Hi L Hc. unfold append_col.
  wb. eapply wp_rd; [apply (csc_jc _ _ _ _ _ C); lia|].
  wb. eapply wp_rd; [apply (csc_jc _ _ _ _ _ C); lia|].
  eapply (wp_col _ _ _ _ _ i (fun done st => let '(Ki, Kx, k) := st in
            logged Ki Kx k cap (l ++ shift off done))); eauto.
  - simpl. rewrite app_nil_r. auto.
  - intros done r v rest [[Ki' Kx'] k'] E Er Ev L'.
    pose proof L' as [L1 L2 L3 _ _]. rewrite zlen_app, zlen_shift in L3.
    rewrite E, zlen_app, zlen_cons in Hc. pose proof (zlen_nonneg rest).
    pose proof (zlen_nonneg l). pose proof (zlen_nonneg done).
    wb. eapply wp_rd; [eauto|]. wb. eapply wp_mono; [apply wp_wr_eq; lia|]. intros Kx2 W2.
    wb. eapply wp_rd; [eauto|]. wb. eapply wp_mono; [apply wp_wr_eq; lia|]. intros Ki2 W1. wok.
    rewrite shift_app, app_assoc. simpl. eapply logged_push; eauto.
Qed.

Lemma append_col_diag_ok M n col i off (Ki : arr Z) (Kx : arr F) k cap l :
  Csc (jc M) (ir M) (pr M) n col -> 0 <= i < n ->
  logged Ki Kx k cap l ->
  let e := match col i with [] => [] | c => c ++ [(off + i, fopp A (f1 A))] end in
  zlen l + zlen e <= cap ->
  wp (append_col_diag A M i off (Ki, Kx, k))
     (fun st => let '(Ki, Kx, k) := st in logged Ki Kx k cap (l ++ e)).
Proof.
  intros C Hi L e Hc. unfold append_col_diag.
  wb. eapply wp_rd; [apply (csc_jc _ _ _ _ _ C); lia|].
  wb. eapply wp_rd; [apply (csc_jc _ _ _ _ _ C); lia|].
  assert (He : e = col i ++ (if zlen (col i) =? 0 then [] else [(off + i, fopp A (f1 A))])).
  { unfold e. destruct (col i) as [|x c]; [reflexivity|]. rewrite zlen_cons. pose proof (zlen_nonneg c).
    destruct (Z.eqb_spec (zlen c + 1) 0); auto; lia. }
  pose proof (start_succ col i ltac:(lia)) as HS.
  eapply (wp_col _ _ _ _ _ i (fun done st => let '(Ki, Kx, k) := st in
     logged Ki Kx k cap (l ++ done ++
       (if (zlen done =? zlen (col i)) && negb (zlen (col i) =? 0) then [(off + i, fopp A (f1 A))] else [])))); eauto.
  - rewrite zlen_nil. destruct (Z.eqb_spec 0 (zlen (col i))) as [E|E].
    + rewrite <- E. simpl. rewrite app_nil_r. auto.
    + simpl. rewrite app_nil_r. auto.
  - intros done r v rest [[Ki' Kx'] k'] E Er Ev L'.
    assert (Hlen : zlen (col i) = zlen done + 1 + zlen rest) by (rewrite E, zlen_app, zlen_cons; lia).
    pose proof (zlen_nonneg rest). pose proof (zlen_nonneg l). pose proof (zlen_nonneg done).
    rewrite He, zlen_app in Hc.
    destruct (Z.eqb_spec (zlen (col i)) 0); [lia|]. rewrite zlen_cons, zlen_nil in Hc.
    destruct (Z.eqb_spec (zlen done) (zlen (col i))); [lia|]. simpl in L'. rewrite app_nil_r in L'.
    pose proof L' as [L1 L2 L3 _ _]. rewrite zlen_app in L3.
    wb. eapply wp_rd; [eauto|]. wb. eapply wp_mono; [apply wp_wr_eq; lia|]. intros Ki2 W1.
    wb. eapply wp_rd; [eauto|]. wb. eapply wp_mono; [apply wp_wr_eq; lia|]. intros Kx2 W2.
    pose proof (logged_push _ _ _ _ _ _ _ _ _ L' W1 W2) as L4. rewrite <- app_assoc in L4.
    rewrite zlen_app, zlen_cons, zlen_nil.
    destruct (Z.eqb_spec (start col i + zlen done) (start col (i + 1) - 1)) as [E2|E2].
    + destruct (Z.eqb_spec (zlen done + (0 + 1)) (zlen (col i))); [|lia]. simpl.
      pose proof L4 as [L5 L6 L7 _ _].
      wb. eapply wp_mono; [apply wp_wr_eq; lia|]. intros Ki3 W3.
      wb. eapply wp_mono; [apply wp_wr_eq; lia|]. intros Kx3 W4. wok.
      pose proof (logged_push _ _ _ _ _ _ _ _ _ L4 W3 W4) as L8.
      rewrite <- !app_assoc in *. exact L8.
    + destruct (Z.eqb_spec (zlen done + (0 + 1)) (zlen (col i))); [lia|]. simpl. wok.
      rewrite app_nil_r. exact L4.
  - intros [[Ki' Kx'] k'] L'. rewrite Z.eqb_refl in L'. rewrite He. simpl in L'.
    destruct (zlen (col i) =? 0); exact L'.
Qed.

(** Number of entries when no row of G is empty, and in general at most that. *)
Lemma start_kkt_low n p pcol acol gcol d j : 0 <= j <= n ->
  start (kkt_col n p pcol acol gcol d) j = start pcol j + start gcol j + start acol j.
Proof.
  intros Hj. unfold start. rewrite <- !sumz_plus. apply sumz_ext. intros x Hx. apply in_zr in Hx.
  unfold kkt_col. destruct (Z.ltb_spec x n); [|lia]. rewrite !zlen_app, !zlen_shift. lia.
Qed.

Lemma sumz_shift (f : Z -> Z) a lo hi : sumz f (zr (lo + a) (hi + a)) = sumz (fun x => f (x + a)) (zr lo hi).
Proof.
  unfold zr. replace (hi + a - (lo + a)) with (hi - lo) by lia. rewrite !sumz_map. apply sumz_ext.
  intros x _. f_equal. lia.
Qed.

Lemma start_kkt_total n m p pcol acol gcol d :
  0 <= n -> 0 <= m -> 0 <= p -> rows_in p n acol -> rows_in m n gcol ->
  start (kkt_col n p pcol acol gcol d) (n + p + m) <=
  start pcol n + 2 * start gcol n + m + 2 * start acol n.
Proof.
  intros Hn Hm Hp Ha Hg. unfold start at 1.
  rewrite (zr_app 0 n (n + p + m)), (zr_app n (n + p) (n + p + m)), !sumz_app by lia.
  fold (start (kkt_col n p pcol acol gcol d) n). rewrite start_kkt_low by lia.
  assert (E1 : sumz (fun j' => zlen (kkt_col n p pcol acol gcol d j')) (zr n (n + p)) = start acol n).
  { rewrite <- (start_tcol acol p n Ha Hn). unfold start.
    replace (zr n (n + p)) with (zr (0 + n) (p + n)) by (f_equal; lia). rewrite sumz_shift. apply sumz_ext.
    intros x Hx. apply in_zr in Hx. unfold kkt_col.
    destruct (Z.ltb_spec (x + n) n); [lia|]. destruct (Z.ltb_spec (x + n) (n + p)); [|lia].
    do 2 f_equal. lia. }
  assert (E2 : sumz (fun j' => zlen (kkt_col n p pcol acol gcol d j')) (zr (n + p) (n + p + m)) <= start gcol n + m).
  { rewrite <- (start_tcol gcol m n Hg Hn). unfold start.
    replace (zr (n + p) (n + p + m)) with (zr (0 + (n + p)) (m + (n + p))) by (f_equal; lia). rewrite sumz_shift.
    assert (G : forall l, (forall x, In x l -> 0 <= x) ->
      sumz (fun x => zlen (kkt_col n p pcol acol gcol d (x + (n + p)))) l <=
      sumz (fun j' => zlen (tcol gcol n j')) l + zlen l).
    { induction l as [|x l IH]; intros Hl; simpl; [unfold zlen; cbn [length]; lia|].
      rewrite zlen_cons. assert (IH' := IH ltac:(intros; apply Hl; simpl; auto)).
      assert (0 <= x) by (apply Hl; simpl; auto).
      unfold kkt_col at 1. destruct (Z.ltb_spec (x + (n + p)) n); [lia|].
      destruct (Z.ltb_spec (x + (n + p)) (n + p)); [lia|].
      replace (x + (n + p) - n - p) with x by lia. destruct (tcol gcol n x) as [|e c].
      - rewrite zlen_nil. lia.
      - rewrite zlen_app, !zlen_cons, zlen_nil. lia. }
    eapply Z.le_trans; [apply G|].
    - intros x Hx. apply in_zr in Hx. lia.
    - rewrite zlen_zr. lia. }
  lia.
Qed.

Lemma kkt_col_rows n m p pcol acol gcol d :
  0 <= n -> 0 <= m -> 0 <= p -> rows_in n n pcol -> rows_in p n acol -> rows_in m n gcol ->
  rows_in (n + p + m) (n + p + m) (kkt_col n p pcol acol gcol d).
Proof.
  intros Hn Hm Hp H1 H2 H3 j r v Hj. unfold kkt_col.
  destruct (Z.ltb_spec j n).
  - rewrite !in_app_iff, !in_shift. intros [H4|[H4|H4]].
    + apply (H1 j) in H4; lia.
    + apply (H2 j) in H4; lia.
    + apply (H3 j) in H4; lia.
  - destruct (Z.ltb_spec j (n + p)).
    + intros H4. apply in_tcol in H4. lia.
    + destruct (tcol gcol n (j - n - p)) as [|e c] eqn:E; [simpl; tauto|].
      rewrite <- E. rewrite in_app_iff. intros [H4|H4].
      * apply in_tcol in H4. lia.
      * simpl in H4. destruct H4 as [H4|[]]. inversion H4; subst. lia.
Qed.

Definition minus_one (_ : Z) : F := fopp A (f1 A).

Lemma formkktmatrix_full_ok P G AAt Gt K n m p cap pcol acol gcol :
  Repr P n n pcol -> Repr G m n gcol -> Repr Gt n m (tcol gcol n) ->
  match AAt with
  | Some (M, Mt) => Repr M p n acol /\ Repr Mt n p (tcol acol n)
  | None => p = 0 /\ acol = (fun _ => [])
  end ->
  sn K = n + p + m -> sm K = n + p + m -> nnz K = cap ->
  zlen (jc K) = n + p + m + 1 -> zlen (ir K) = cap -> zlen (pr K) = cap ->
  start (kkt_col n p pcol acol gcol minus_one) (n + p + m) <= cap ->
  wp (formkktmatrix_full A P G AAt Gt K)
     (fun K' => KktRep K' (n + p + m) cap (kkt_col n p pcol acol gcol minus_one)).
Proof.
  intros RP RG RGt HA E1 E2 E3 LJ LI LX Hcap.
  set (col := kkt_col n p pcol acol gcol minus_one) in *.
  assert (Hn : 0 <= n) by apply RP. assert (Hm : 0 <= m) by apply RG.
  assert (Hp : 0 <= p /\ rows_in p n acol).
  { destruct AAt as [[M Mt]|].
    - destruct HA as [HA _]. split; apply HA.
    - destruct HA as [-> ->]. split; [lia|]. intros j r v _ H. destruct H. }
  destruct Hp as [Hp Hra].
  pose proof (rp_csc _ _ _ _ RP) as CP. pose proof (rp_csc _ _ _ _ RG) as CG. pose proof (rp_csc _ _ _ _ RGt) as CGt.
  assert (Hsub : forall j, 0 <= j <= n + p + m -> start col j <= cap).
  { intros j Hj. eapply Z.le_trans; [apply (start_mono col j (n + p + m)); lia|auto]. }
  (* invariant of all three phases *)
  set (good := fun (j : Z) (st : arr Z * (arr Z * arr F * Z)) => let '(kjc, (kir, kpr, k)) := st in
     zlen kjc = n + p + m + 1 /\ (forall i, 0 <= i <= j -> rd kjc i = Ok (start col i)) /\
     logged kir kpr k cap (flat col j)).
  assert (Hfin : forall kjc kir kpr k, good (n + p + m) (kjc, (kir, kpr, k)) ->
      KktRep (mkSmat kjc kir kpr (sn K) (sm K) (nnz K)) (n + p + m) cap col).
  { intros kjc kir kpr k [G1 [G2 G3]]. pose proof G3 as [G4 G5 G6 _ _].
    split; simpl; auto; try lia.
    - eapply logged_csc; eauto.
    - apply kkt_col_rows; auto; [apply RP|apply RG]. }
  assert (Hinit : forall kjc, zlen kjc = zlen (jc K) -> (forall j, rd kjc j = if j =? 0 then Ok 0 else rd (jc K) j) ->
      good 0 (kjc, (ir K, pr K, 0))).
  { intros kjc L R. repeat split; try lia.
    - intros i Hi. assert (i = 0) by lia. subst. rewrite R. reflexivity.
    - intros [|t]; discriminate.
    - intros [|t]; discriminate. }
  assert (Hpush : forall j kjc kjc' kir kpr k e, 0 <= j < n + p + m ->
      zlen kjc = n + p + m + 1 -> (forall i, 0 <= i <= j -> rd kjc i = Ok (start col i)) ->
      logged kir kpr k cap (flat col j ++ col j) -> 
      e = start col j + zlen (col j) ->
      wr kjc (j + 1) e = Ok kjc' -> good (j + 1) (kjc', (kir, kpr, k))).
  { intros j kjc kjc' kir kpr k e Hj L R HL -> W. repeat split.
    - rewrite (wr_len _ _ _ _ W); auto.
    - intros i Hi. rewrite (rd_wr _ _ _ _ _ W). destruct (Z.eqb_spec i (j + 1)) as [->|].
      + rewrite start_succ by lia. auto.
      + apply R; lia.
    - apply HL.
    - apply HL.
    - rewrite flat_succ by lia. apply HL.
    - rewrite flat_succ by lia. apply HL.
    - rewrite flat_succ by lia. apply HL. }
  assert (Hdiag : forall off jj, off = n + p -> 
     (forall i, jj i = i + 1 + (n + p)) ->
     forall i st, 0 <= i < m -> good (n + p + i) st ->
     wp (let '(kjc, st) := st in
          '(kir, kpr, k) <- append_col_diag A Gt i off st ;;
          kjc <- wr kjc (jj i) k ;;
          Ok (kjc, (kir, kpr, k))) (good (n + p + (i + 1)))).
  { intros off jj -> Ejj i [kjc [[kir kpr] k]] Hi [G1 [G2 G3]].
    assert (Ecol : match tcol gcol n i with [] => [] | c => c ++ [(n + p + i, fopp A (f1 A))] end = col (n + p + i)).
    { unfold col, kkt_col. destruct (Z.ltb_spec (n + p + i) n); [lia|].
      destruct (Z.ltb_spec (n + p + i) (n + p)); [lia|]. replace (n + p + i - n - p) with i by lia.
      reflexivity. }
    wb. eapply wp_mono.
    { eapply (append_col_diag_ok Gt m (tcol gcol n) i (n + p)); eauto.
      rewrite Ecol, zlen_flat, <- start_succ by lia. apply Hsub; lia. }
    rewrite Ecol. intros [[kir2 kpr2] k2] L2. wb.
    pose proof L2 as [_ _ L3 _ _]. rewrite zlen_app, zlen_flat in L3.
    rewrite Ejj. eapply wp_mono; [apply wp_wr_eq; lia|]. intros kjc2 W. wok.
    replace (n + p + (i + 1)) with (n + p + i + 1) by lia.
    eapply (Hpush (n + p + i)); eauto; [lia|].
    replace (n + p + i + 1) with (i + 1 + (n + p)) by lia. exact W. }
  assert (Hlow : forall j, 0 <= j < n -> col j = pcol j ++ shift n (acol j) ++ shift (n + p) (gcol j)).
  { intros j Hj. unfold col, kkt_col. destruct (Z.ltb_spec j n); [auto|lia]. }
  assert (Hshift0 : forall l : list (Z * F), shift 0 l = l).
  { induction l as [|[a b] l IH]; simpl; auto. rewrite IH. auto. }
  unfold formkktmatrix_full.
  rewrite (rp_sn _ _ _ _ RP), (rp_sm _ _ _ _ RP), (rp_sn _ _ _ _ RGt).
  wb. apply wp_wr; [lia|]. intros kjc0 L0 R0. pose proof (Hinit _ L0 R0) as G0.
  destruct AAt as [[M Mt]|].
  - destruct HA as [RM RMt].
    pose proof (rp_csc _ _ _ _ RM) as CM. pose proof (rp_csc _ _ _ _ RMt) as CMt.
    rewrite (rp_sm _ _ _ _ RM), (rp_sn _ _ _ _ RMt).
    wb. eapply (wp_for_le good); auto.
    { intros i [kjc [[kir kpr] k]] Hi [G1 [G2 G3]].
      pose proof (Hsub (i + 1) ltac:(lia)) as HB. rewrite start_succ in HB by lia. rewrite Hlow in HB by lia.
      rewrite !zlen_app, !zlen_shift in HB.
      pose proof (zlen_nonneg (pcol i)). pose proof (zlen_nonneg (acol i)). pose proof (zlen_nonneg (gcol i)).
      wb. eapply wp_mono; [eapply (append_col_ok P n pcol); eauto; rewrite zlen_flat; lia|].
      rewrite Hshift0. intros [[kir1 kpr1] k1] L1.
      wb. eapply wp_mono; [eapply (append_col_ok M n acol); eauto; rewrite zlen_app, zlen_flat; lia|].
      intros [[kir2 kpr2] k2] L2.
      wb. eapply wp_mono.
      { eapply (append_col_ok G n gcol); eauto; rewrite !zlen_app, zlen_flat, zlen_shift; lia. }
      intros [[kir3 kpr3] k3] L3.
      wb. eapply wp_rd; [apply (csc_jc _ _ _ _ _ CP); lia|].
      wb. eapply wp_rd; [apply (csc_jc _ _ _ _ _ CG); lia|].
      wb. eapply wp_rd; [apply (csc_jc _ _ _ _ _ CM); lia|].
      wb. eapply wp_mono; [apply wp_wr_eq; lia|]. intros kjc2 W. wok.
      eapply Hpush; try exact W; auto; [lia| |].
      - rewrite Hlow by lia. rewrite <- !app_assoc in L3. exact L3.
      - rewrite <- start_succ by lia. unfold col. rewrite start_kkt_low by lia. lia. }
    intros [kjc st] G2. wb. eapply (wp_for_le (fun i st => good (n + i) st)); auto.
    { rewrite Z.add_0_r. exact G2. }
    { intros i [kjc2 [[kir kpr] k]] Hi [G3 [G4 G5]].
      assert (Ecol : tcol acol n i = col (n + i)).
      { unfold col, kkt_col. destruct (Z.ltb_spec (n + i) n); [lia|].
        destruct (Z.ltb_spec (n + i) (n + p)); [|lia]. f_equal. lia. }
      wb. eapply wp_mono.
      { eapply (append_col_ok Mt p (tcol acol n) i 0); eauto.
        rewrite Ecol, zlen_flat, <- start_succ by lia. apply Hsub; lia. }
      rewrite Hshift0, Ecol. intros [[kir2 kpr2] k2] L2. pose proof L2 as [_ _ L3 _ _].
      rewrite zlen_app, zlen_flat in L3.
      wb. eapply wp_mono; [apply wp_wr_eq; lia|]. intros kjc3 W. wok.
      replace (n + (i + 1)) with (n + i + 1) by lia. eapply (Hpush (n + i)); eauto; [lia|].
      replace (n + i + 1) with (i + 1 + n) by lia. exact W. }
    intros [kjc2 st2] G3. wb. eapply (wp_for_le (fun i st => good (n + p + i) st)); auto.
    { rewrite Z.add_0_r. exact G3. }
    { apply (Hdiag (n + p) (fun i => i + 1 + n + p)); [auto|]. intros; lia. }
    intros [kjc3 [[kir kpr] k]] G4. wok. eapply Hfin; eauto.
  - destruct HA as [-> ->].
    wb. eapply (wp_for_le good); auto.
    { intros i [kjc [[kir kpr] k]] Hi [G1 [G2 G3]].
      pose proof (Hsub (i + 1) ltac:(lia)) as HB. rewrite start_succ in HB by lia. rewrite Hlow in HB by lia.
      rewrite !zlen_app, !zlen_shift in HB. rewrite zlen_nil in HB.
      pose proof (zlen_nonneg (pcol i)). pose proof (zlen_nonneg (gcol i)).
      wb. eapply wp_mono; [eapply (append_col_ok P n pcol); eauto; rewrite zlen_flat; lia|].
      rewrite Hshift0. intros [[kir1 kpr1] k1] L1.
      wb. eapply wp_mono.
      { eapply (append_col_ok G n gcol); eauto; rewrite !zlen_app, zlen_flat; lia. }
      intros [[kir3 kpr3] k3] L3.
      wb. eapply wp_rd; [apply (csc_jc _ _ _ _ _ CP); lia|].
      wb. eapply wp_rd; [apply (csc_jc _ _ _ _ _ CG); lia|].
      wb. eapply wp_mono; [apply wp_wr_eq; lia|]. intros kjc2 W. wok.
      eapply Hpush; try exact W; auto; [lia| |].
      - rewrite Hlow by lia. simpl. rewrite Z.add_0_r. rewrite <- !app_assoc in L3. exact L3.
      - rewrite <- start_succ by lia. unfold col. rewrite start_kkt_low by lia.
        assert (start (fun _ : Z => @nil (Z * F)) (i + 1) = 0) by (apply sumz_zero; auto). lia. }
    intros [kjc st] G2. wb. eapply (wp_for_le (fun i st => good (n + 0 + i) st)); auto.
    { replace (n + 0 + 0) with n by lia. exact G2. }
    { apply (Hdiag n (fun i => i + 1 + n)); [lia|]. intros; lia. }
    intros [kjc3 [[kir kpr] k]] G4. wok. eapply Hfin; eauto.
Qed.

End WithArith.
