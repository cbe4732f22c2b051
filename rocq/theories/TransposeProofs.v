(** Sparse transposition (property C03). *)
From Coq Require Import ZArith Reals List Lia Lra Bool.
From Verif Require Import Res Arith Lists MSparse Csc Flat SemVec.
Import ListNotations.
Open Scope Z_scope.
Open Scope res_scope.

(** Entries of [l] in row [k], as entries of the transpose coming from column [j]. *)
Definition trow {F} (j k : Z) (l : list (Z * F)) : list (Z * F) :=
  map (fun e => (j, snd e)) (filter (fun e => fst e =? k) l).

(** Column [k] of the transpose of the first [n] columns. *)
Definition tcol {F} (col : cols F) (n : Z) : cols F :=
  fun k => flat_map (fun j => trow j k (col j)) (zr 0 n).

Lemma trow_app {F} j k (l1 l2 : list (Z * F)) : trow j k (l1 ++ l2) = trow j k l1 ++ trow j k l2.
Proof. unfold trow. rewrite filter_app, map_app. reflexivity. Qed.

Lemma trow_one {F} j k r (v : F) : trow j k [(r, v)] = if r =? k then [(j, v)] else [].
Proof. unfold trow. simpl. destruct (r =? k); reflexivity. Qed.

Lemma tcol_succ {F} (col : cols F) n k : 0 <= n -> tcol col (n + 1) k = tcol col n k ++ trow n k (col n).
Proof. intros H. unfold tcol. rewrite zr_snoc, flat_map_app by lia. simpl. now rewrite app_nil_r. Qed.

Lemma zlen_trow {F} j k (l : list (Z * F)) : zlen (trow j k l) = cnt (fun e => fst e =? k) l.
Proof. unfold trow. rewrite zlen_map, cnt_filter. reflexivity. Qed.

Lemma in_trow {F} j k (l : list (Z * F)) r v : In (r, v) (trow j k l) <-> r = j /\ In (k, v) l.
Proof.
  unfold trow. rewrite in_map_iff. split.
  - intros [[a b] [E H]]. apply filter_In in H. destruct H as [H1 H2]. simpl in *.
    apply Z.eqb_eq in H2. inversion E; subst. auto.
  - intros [-> H]. exists (k, v). split; auto. apply filter_In. split; auto. simpl. apply Z.eqb_refl.
Qed.

Lemma in_tcol {F} (col : cols F) n k r v : In (r, v) (tcol col n k) <-> 0 <= r < n /\ In (k, v) (col r).
Proof.
  unfold tcol. rewrite in_flat_map. split.
  - intros [j [Hj H]]. apply in_zr in Hj. apply in_trow in H. destruct H as [-> H]. auto.
  - intros [Hr H]. exists r. split; [apply in_zr; auto|]. apply in_trow. auto.
Qed.

(** Same number of entries. *)
Lemma start_tcol {F} (col : cols F) m n : rows_in m n col -> 0 <= n -> start (tcol col n) m = start col n.
Proof.
  intros H Hn. unfold start.
  rewrite (sumz_ext _ (fun k => sumz (fun j => cnt (fun e => fst e =? k) (col j)) (zr 0 n))).
  2:{ intros k _. unfold tcol. rewrite zlen_flat_map. apply sumz_ext. intros; apply zlen_trow. }
  rewrite sumz_swap. apply sumz_ext. intros j Hj. apply in_zr in Hj.
  unfold cnt. rewrite sumz_swap.
  rewrite (sumz_ext _ (fun _ => 1)).
  - clear. induction (col j); simpl; auto. rewrite IHl, zlen_cons. lia.
  - intros [r v] He. simpl. rewrite (sumz_ext _ (fun x => if x =? r then 1 else 0)).
    + apply sumz_delta; [apply NoDup_zr|apply in_zr; eapply H; eauto].
    + intros x _. rewrite Z.eqb_sym. reflexivity.
Qed.

(** Disjointness of the segments of different columns. *)
Lemma segment_disjoint {F} (T : cols F) k1 t1 k2 t2 m :
  0 <= k1 < m -> 0 <= k2 < m -> 0 <= t1 < zlen (T k1) -> 0 <= t2 < zlen (T k2) ->
  start T k1 + t1 = start T k2 + t2 -> k1 = k2 /\ t1 = t2.
Proof.
  intros H1 H2 T1 T2 E.
  destruct (Z.lt_trichotomy k1 k2) as [L|[->|L]].
  - pose proof (start_mono T (k1 + 1) k2 ltac:(lia)). rewrite start_succ in H by lia. lia.
  - split; auto; lia.
  - pose proof (start_mono T (k2 + 1) k1 ltac:(lia)). rewrite start_succ in H by lia. lia.
Qed.

Lemma row_pointers_ok {F} m n Mi Mp (Mx : arr F) col Tp :
  0 <= m -> 0 <= n -> Csc Mp Mi Mx n col -> rows_in m n col -> zlen Tp = m + 1 ->
  wp (row_pointers m n Mi Mp Tp) (fun st => let '(Tp', count) := st in
     is_vec Tp' (m + 1) (start (tcol col n)) /\ is_vec count m (fun _ => 0)).
Proof.
  intros Hm Hn C Hrow LT. unfold row_pointers.
  wb. eapply wp_mono; [apply (fill_ok (fun _ => 0)); [lia|apply zlen_malloc; lia|reflexivity]|].
  intros count Hc. wb.
  eapply (wp_for_le (fun i count => is_vec count m (fun k => zlen (tcol col i k)))); auto.
  { intros i c Hi Hv. wb. eapply wp_rd; [apply (csc_jc _ _ _ _ _ C); lia|].
    wb. eapply wp_rd; [apply (csc_jc _ _ _ _ _ C); lia|].
    eapply (wp_col _ _ _ _ _ i (fun done c =>
       is_vec c m (fun k => zlen (tcol col i k) + zlen (trow i k done)))); eauto.
    - eapply is_vec_ext; eauto. intros k _. simpl. unfold trow. simpl. rewrite zlen_nil. lia.
    - intros done r v rest c' E Er Ev [L R].
      assert (Hr : 0 <= r < m) by (eapply Hrow; [eauto|]; rewrite E; apply in_elt).
      wb. eapply wp_rd; [eauto|]. wb. eapply wp_rd; [apply R; auto|].
      apply wp_wr; [lia|]. intros c2 L2 R2. split; [lia|]. intros k Hk. rewrite R2, trow_app, trow_one, zlen_app.
      rewrite Z.eqb_sym. destruct (Z.eqb_spec r k) as [->|].
      + rewrite zlen_cons, zlen_nil. f_equal. lia.
      + rewrite zlen_nil, Z.add_0_r. apply R; auto.
    - intros c' H. eapply is_vec_ext; eauto. intros k _. simpl. rewrite tcol_succ, zlen_app by lia. auto. }
  clear count Hc. intros count [Lc Rc]. set (T := tcol col n) in *. wb.
  apply wp_wr; [lia|]. intros Tp1 L1 R1. wb.
  eapply (wp_for_le (fun j Tp => zlen Tp = m + 1 /\ forall i, 0 <= i <= j -> rd Tp i = Ok (start T i))); auto.
  { split; [lia|]. intros i Hi. rewrite R1. assert (i = 0) by lia. subst. reflexivity. }
  { intros j Tp2 Hj [L2 R2]. wb. eapply wp_rd; [apply R2; lia|]. wb. eapply wp_rd; [apply Rc; lia|].
    apply wp_wr; [lia|]. intros Tp3 L3 R3. split; [lia|]. intros i Hi. rewrite R3.
    destruct (Z.eqb_spec i (j + 1)) as [->|]; [rewrite start_succ by lia; auto|apply R2; lia]. }
  intros Tp2 [L2 R2]. wb.
  eapply wp_mono; [apply (fill_ok (fun _ => 0)); [lia|auto|reflexivity]|].
  intros c2 Hc2. wok. split; auto. split; auto. intros i Hi. apply R2; lia.
Qed.

Section WithArith.
Variable A : Arith.
Notation F := (car A).

Lemma SparseMatrixTranspose_ok M m n col At :
  Repr M m n col -> sn At = m -> sm At = n -> nnz At = nnz M ->
  zlen (jc At) = m + 1 -> zlen (ir At) = nnz M -> zlen (pr At) = nnz M ->
  wp (SparseMatrixTranspose A M At) (fun Mt => ReprX Mt n m (tcol col n)).
Proof.
  intros RP E1 E2 E3 LJ LI LX. destruct RP as [Hm Hn Esn Esm Ennz C Hrow].
  unfold SparseMatrixTranspose. rewrite Esn, Esm. wb.
  eapply wp_mono; [eapply row_pointers_ok; eauto|]. intros [Tp count] [[LT RT] Hc].
  set (T := tcol col n) in *.
  pose proof (start_tcol col m n Hrow Hn) as HS. fold T in HS.
  set (good := fun (cur : Z -> list (Z * F)) (st : arr Z * arr F * arr Z) => let '(Ti, Tx, count) := st in
     zlen Ti = start T m /\ zlen Tx = start T m /\ is_vec count m (fun k => zlen (cur k)) /\
     (forall k t r v, 0 <= k < m -> nth_error (cur k) t = Some (r, v) ->
         rd Ti (start T k + Z.of_nat t) = Ok r /\ rd Tx (start T k + Z.of_nat t) = Ok v)).
  wb. eapply (wp_for_le (fun i st => good (tcol col i) st)); auto.
  { unfold good. repeat split; try lia.
    - apply Hc.
    - apply Hc.
    - destruct t; discriminate.
    - destruct t; discriminate. }
  { intros i st Hi HG. wb. eapply wp_rd; [apply (csc_jc _ _ _ _ _ C); lia|].
    wb. eapply wp_rd; [apply (csc_jc _ _ _ _ _ C); lia|].
    eapply (wp_col _ _ _ _ _ i (fun done st => good (fun k => tcol col i k ++ trow i k done) st)); eauto.
    - unfold trow. simpl. destruct st as [[Ti Tx] c]. unfold good in *. destruct HG as [G1 [G2 [G3 G4]]].
      repeat split; auto.
      + apply G3.
      + intros k Hk. rewrite app_nil_r. apply G3; auto.
      + rewrite app_nil_r in H0. eapply G4; eauto.
      + rewrite app_nil_r in H0. eapply G4; eauto.
    - intros done r v rest [[Ti Tx] c] E Er Ev [G1 [G2 [[G3 G3'] G4]]].
      assert (Hr : 0 <= r < m) by (eapply Hrow; [eauto|]; rewrite E; apply in_elt).
      set (cur := tcol col i r ++ trow i r done) in *.
      assert (Hlt : zlen cur < zlen (T r)).
      { assert (EQ : T r = cur ++ (i, v) :: trow i r rest ++ flat_map (fun j => trow j r (col j)) (zr (i + 1) n)).
        { unfold T, tcol, cur. rewrite (zr_app 0 i n), flat_map_app by lia. rewrite (zr_cons i n) by lia.
          simpl. rewrite E, trow_app. unfold trow at 3. simpl. rewrite Z.eqb_refl. simpl.
          unfold tcol. rewrite <- !app_assoc. reflexivity. }
        rewrite EQ, zlen_app, zlen_cons.
        pose proof (zlen_nonneg (trow i r rest ++ flat_map (fun j => trow j r (col j)) (zr (i + 1) n))). lia. }
      pose proof (zlen_nonneg cur) as Hcur.
      pose proof (start_in T r m (zlen cur) Hr ltac:(lia)) as Hin.
      wb. eapply wp_rd; [eauto|]. wb. eapply wp_rd; [apply RT; lia|]. wb. eapply wp_rd; [apply G3'; auto|].
      wb. apply wp_wr; [fold cur; lia|]. intros Ti2 LTi RTi. wb. eapply wp_rd; [eauto|].
      wb. apply wp_wr; [fold cur; lia|]. intros Tx2 LTx RTx. wb. apply wp_wr; [lia|]. intros c2 Lc2 Rc2. wok.
      fold cur in RTi, RTx, Rc2.
      assert (Hnew : forall k t, 0 <= k < m -> (t < length (tcol col i k ++ trow i k done))%nat ->
                       start T k + Z.of_nat t <> start T r + zlen cur).
      { intros k t Hk Ht EE.
        assert (Hpre : zlen (tcol col i k ++ trow i k done) <= zlen (T k)).
        { unfold T, tcol. rewrite (zr_app 0 i n), flat_map_app, (zr_cons i n) by lia. simpl.
          rewrite E, trow_app. rewrite !zlen_app.
          pose proof (zlen_nonneg (trow i k ((r, v) :: rest))).
          pose proof (zlen_nonneg (flat_map (fun j => trow j k (col j)) (zr (i + 1) n))). lia. }
        assert (Ht2 : Z.of_nat t < zlen (tcol col i k ++ trow i k done)) by (unfold zlen; lia).
        destruct (segment_disjoint T k (Z.of_nat t) r (zlen cur) m Hk Hr) as [-> EE2]; try lia.
        unfold cur in EE2. lia. }
      unfold good. repeat split; try lia.
      + intros k Hk. rewrite Rc2, trow_app, trow_one, Z.eqb_sym. destruct (Z.eqb_spec r k) as [->|].
        * rewrite app_assoc, zlen_app, zlen_cons, zlen_nil. fold cur. f_equal. 
        * rewrite app_nil_r. apply G3'; auto.
      + rewrite RTi. rewrite trow_app, trow_one in H0. destruct (Z.eqb_spec r k) as [->|Hne].
        * fold cur in H0. rewrite app_assoc in H0. fold cur in H0.
          destruct (Nat.lt_ge_cases t (length cur)) as [Hlt2|Hge].
          -- rewrite nth_error_app1 in H0 by auto.
             destruct (Z.eqb_spec (start T k + Z.of_nat t) (start T k + zlen cur)).
             { exfalso; eapply Hnew; eauto. } eapply G4; eauto.
          -- assert (Ht : (t < length (cur ++ [(i, v)]))%nat) by (apply nth_error_Some; congruence).
             rewrite app_length in Ht. simpl in Ht. assert (t = length cur) by lia. subst t.
             rewrite nth_error_app2, Nat.sub_diag in H0 by lia. simpl in H0. inversion H0; subst.
             fold (zlen cur). rewrite Z.eqb_refl. auto.
        * rewrite app_nil_r in H0.
          destruct (Z.eqb_spec (start T k + Z.of_nat t) (start T r + zlen cur)).
          { exfalso. eapply Hnew; eauto. apply nth_error_Some; congruence. } eapply G4; eauto.
      + rewrite RTx. rewrite trow_app, trow_one in H0. destruct (Z.eqb_spec r k) as [->|Hne].
        * fold cur in H0. rewrite app_assoc in H0. fold cur in H0.
          destruct (Nat.lt_ge_cases t (length cur)) as [Hlt2|Hge].
          -- rewrite nth_error_app1 in H0 by auto.
             destruct (Z.eqb_spec (start T k + Z.of_nat t) (start T k + zlen cur)).
             { exfalso; eapply Hnew; eauto. } eapply G4; eauto.
          -- assert (Ht : (t < length (cur ++ [(i, v)]))%nat) by (apply nth_error_Some; congruence).
             rewrite app_length in Ht. simpl in Ht. assert (t = length cur) by lia. subst t.
             rewrite nth_error_app2, Nat.sub_diag in H0 by lia. simpl in H0. inversion H0; subst.
             fold (zlen cur). rewrite Z.eqb_refl. auto.
        * rewrite app_nil_r in H0.
          destruct (Z.eqb_spec (start T k + Z.of_nat t) (start T r + zlen cur)).
          { exfalso. eapply Hnew; eauto. apply nth_error_Some; congruence. } eapply G4; eauto.
    - intros [[Ti Tx] c] [G1 [G2 [G3 G4]]]. unfold good. repeat split; auto.
      + apply G3.
      + intros k Hk. rewrite tcol_succ by lia. apply G3; auto.
      + rewrite tcol_succ in H0 by lia. eapply G4; eauto.
      + rewrite tcol_succ in H0 by lia. eapply G4; eauto. }
  intros [[Ti Tx] c] [G1 [G2 [G3 G4]]]. fold T in G4. wok. split; simpl.
  - split; simpl; auto; try lia.
    + split.
      * intros j Hj. apply RT; lia.
      * intros j t r v Hj H. eapply G4; eauto.
      * intros j t r v Hj H. eapply G4; eauto.
    + intros j r v Hj H. unfold T in H. apply in_tcol in H. tauto.
  - lia.
  - lia.
  - lia.
Qed.

(** The pattern-only variant used on L. *)
Lemma Transpose_Row_Count_ok m n Li Lp (Lx : arr F) col Lti Ltp :
  0 <= m -> 0 <= n -> Csc Lp Li Lx n col -> rows_in m n col ->
  zlen Ltp = m + 1 -> zlen Lti = start col n ->
  wp (Transpose_Row_Count m n Li Lp Lti Ltp) (fun st => let '(Lti', Ltp') := st in
     is_vec Ltp' (m + 1) (start (tcol col n)) /\ zlen Lti' = start col n /\
     (forall k t r v, 0 <= k < m -> nth_error (tcol col n k) t = Some (r, v) ->
         rd Lti' (start (tcol col n) k + Z.of_nat t) = Ok r)).
Proof.
  intros Hm Hn C Hrow LT LI. unfold Transpose_Row_Count. wb.
  eapply wp_mono; [eapply row_pointers_ok; eauto|]. intros [Tp count] [[LTp RT] Hc].
  set (T := tcol col n) in *.
  pose proof (start_tcol col m n Hrow Hn) as HS. fold T in HS.
  set (good := fun (cur : Z -> list (Z * F)) (st : arr Z * arr Z) => let '(Ti, count) := st in
     zlen Ti = start T m /\ is_vec count m (fun k => zlen (cur k)) /\
     (forall k t r v, 0 <= k < m -> nth_error (cur k) t = Some (r, v) ->
         rd Ti (start T k + Z.of_nat t) = Ok r)).
  wb. eapply (wp_for_le (fun i st => good (tcol col i) st)); auto.
  { unfold good. repeat split; try lia.
    - apply Hc.
    - apply Hc.
    - intros k t r v _. destruct t; discriminate. }
  { intros i st Hi HG. wb. eapply wp_rd; [apply (csc_jc _ _ _ _ _ C); lia|].
    wb. eapply wp_rd; [apply (csc_jc _ _ _ _ _ C); lia|].
    eapply (wp_col _ _ _ _ _ i (fun done st => good (fun k => tcol col i k ++ trow i k done) st)); eauto.
    - unfold trow. simpl. destruct st as [Ti c]. unfold good in *. destruct HG as [G1 [G3 G4]].
      repeat split; auto.
      + apply G3.
      + intros k Hk. rewrite app_nil_r. apply G3; auto.
      + intros k t r v Hk H0. rewrite app_nil_r in H0. eapply G4; eauto.
    - intros done r v rest [Ti c] E Er Ev [G1 [[G3 G3'] G4]].
      assert (Hr : 0 <= r < m) by (eapply Hrow; [eauto|]; rewrite E; apply in_elt).
      set (cur := tcol col i r ++ trow i r done) in *.
      assert (Hlt : zlen cur < zlen (T r)).
      { assert (EQ : T r = cur ++ (i, v) :: trow i r rest ++ flat_map (fun j => trow j r (col j)) (zr (i + 1) n)).
        { unfold T, tcol, cur. rewrite (zr_app 0 i n), flat_map_app by lia. rewrite (zr_cons i n) by lia.
          simpl. rewrite E, trow_app. unfold trow at 3. simpl. rewrite Z.eqb_refl. simpl.
          unfold tcol. rewrite <- !app_assoc. reflexivity. }
        rewrite EQ, zlen_app, zlen_cons.
        pose proof (zlen_nonneg (trow i r rest ++ flat_map (fun j => trow j r (col j)) (zr (i + 1) n))). lia. }
      pose proof (zlen_nonneg cur) as Hcur.
      pose proof (start_in T r m (zlen cur) Hr ltac:(lia)) as Hin.
      wb. eapply wp_rd; [eauto|]. wb. eapply wp_rd; [apply RT; lia|]. wb. eapply wp_rd; [apply G3'; auto|].
      wb. apply wp_wr; [fold cur; lia|]. intros Ti2 LTi RTi.
      wb. apply wp_wr; [lia|]. intros c2 Lc2 Rc2. wok.
      fold cur in RTi, Rc2.
      assert (Hnew : forall k t, 0 <= k < m -> (t < length (tcol col i k ++ trow i k done))%nat ->
                       start T k + Z.of_nat t <> start T r + zlen cur).
      { intros k t Hk Ht EE.
        assert (Hpre : zlen (tcol col i k ++ trow i k done) <= zlen (T k)).
        { unfold T, tcol. rewrite (zr_app 0 i n), flat_map_app, (zr_cons i n) by lia. simpl.
          rewrite E, trow_app. rewrite !zlen_app.
          pose proof (zlen_nonneg (trow i k ((r, v) :: rest))).
          pose proof (zlen_nonneg (flat_map (fun j => trow j k (col j)) (zr (i + 1) n))). lia. }
        assert (Ht2 : Z.of_nat t < zlen (tcol col i k ++ trow i k done)) by (unfold zlen; lia).
        destruct (segment_disjoint T k (Z.of_nat t) r (zlen cur) m Hk Hr) as [-> EE2]; try lia.
        unfold cur in EE2. lia. }
      unfold good. repeat split; try lia.
      + intros k Hk. rewrite Rc2, trow_app, trow_one, Z.eqb_sym. destruct (Z.eqb_spec r k) as [->|].
        * rewrite app_assoc, zlen_app, zlen_cons, zlen_nil. fold cur. f_equal. 
        * rewrite app_nil_r. apply G3'; auto.
      + intros k t r' v' Hk H0.
        rewrite RTi. rewrite trow_app, trow_one in H0. destruct (Z.eqb_spec r k) as [->|Hne].
        * fold cur in H0. rewrite app_assoc in H0. fold cur in H0.
          destruct (Nat.lt_ge_cases t (length cur)) as [Hlt2|Hge].
          -- rewrite nth_error_app1 in H0 by auto.
             destruct (Z.eqb_spec (start T k + Z.of_nat t) (start T k + zlen cur)).
             { exfalso; eapply Hnew; eauto. } eapply G4; eauto.
          -- assert (Ht : (t < length (cur ++ [(i, v)]))%nat) by (apply nth_error_Some; congruence).
             rewrite app_length in Ht. simpl in Ht. assert (t = length cur) by lia. subst t.
             rewrite nth_error_app2, Nat.sub_diag in H0 by lia. simpl in H0. inversion H0; subst.
             fold (zlen cur). rewrite Z.eqb_refl. auto.
        * rewrite app_nil_r in H0.
          destruct (Z.eqb_spec (start T k + Z.of_nat t) (start T r + zlen cur)).
          { exfalso. eapply Hnew; eauto. apply nth_error_Some; congruence. } eapply G4; eauto.
    - intros [Ti c] [G1 [G3 G4]]. unfold good. repeat split; auto.
      + apply G3.
      + intros k Hk. rewrite tcol_succ by lia. apply G3; auto.
      + intros k t r v Hk H0. rewrite tcol_succ in H0 by lia. eapply G4; eauto. }
  intros [Ti c] [G1 [G3 G4]]. wok. split; [split; auto|split]; [lia|]. exact G4.
Qed.

End WithArith.

(** Exact arithmetic: entry (r, k) of the transpose is entry (k, r). *)
Lemma tcol_ent (col : cols R) n k r : 0 <= r < n -> ent (tcol col n k) r = ent (col r) k.
Proof.
  intros Hr. unfold ent, tcol. rewrite sumr_flat_map.
  rewrite (sumr_ext _ (fun j => if j =? r then ent (col j) k else 0%R)).
  - rewrite (sumr_delta r (fun j => ent (col j) k)); [reflexivity|apply NoDup_zr|apply in_zr; auto].
  - intros j _. unfold trow, ent. rewrite sumr_map, sumr_filter. cbn [fst snd].
    destruct (Z.eqb_spec j r).
    + reflexivity.
    + apply sumr_zero. intros e _. destruct (fst e =? k); auto.
Qed.
