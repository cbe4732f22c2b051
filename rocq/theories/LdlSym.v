(** LDL_symbolic computes the elimination forest and the column counts of the factor. *)
From Coq Require Import ZArith List Lia Bool.
From Verif Require Import Res Arith Lists MSparse Csc SemVec MLdl LdlSpec.
Import ListNotations.
Open Scope Z_scope.
Open Scope res_scope.

(** A permutation of [0, n) and its inverse. *)
Record isperm (n : Z) (Pf Qf : Z -> Z) : Prop := mkPerm {
  pf_range : forall k, 0 <= k < n -> 0 <= Pf k < n;
  qf_range : forall a, 0 <= a < n -> 0 <= Qf a < n;
  qf_pf : forall k, 0 <= k < n -> Qf (Pf k) = k;
  pf_qf : forall a, 0 <= a < n -> Pf (Qf a) = a
}.

(** Column [k] of the permuted matrix P A P'. *)
Definition bcol {F} (Pf Qf : Z -> Z) (col : cols F) (k : Z) : list (Z * F) :=
  map (fun e => (Qf (fst e), snd e)) (col (Pf k)).
Definition brows {F} (Pf Qf : Z -> Z) (col : cols F) (k : Z) : list Z :=
  map (fun e => Qf (fst e)) (col (Pf k)).

(** Number of nonzeros of column [i] of the factor among rows before [k]. *)
Definition lcnt (n : Z) (par : Z -> Z) (rows : Z -> list Z) (k i : Z) : Z :=
  cnt (fun r => inb i (patlist n par (rows r) r)) (zr 0 k).

Lemma lcnt_succ n par rows k i : 0 <= k ->
  lcnt n par rows (k + 1) i = lcnt n par rows k i + (if inb i (patlist n par (rows k) k) then 1 else 0).
Proof. intros H. unfold lcnt, cnt. rewrite zr_snoc, sumz_app by lia. simpl. lia. Qed.

Section Sym.
Variable n : Z.

(** [perm_get] seen as a function. *)
Definition pget (P : option (arr Z)) (f : Z -> Z) : Prop := forall k, 0 <= k < n -> perm_get P k = Ok (f k).

Lemma compute_Pinv_ok p q Pf Qf :
  0 <= n -> isperm n Pf Qf -> vec p n Pf -> zlen q = n ->
  wp (compute_Pinv n (Some p) (Some q)) (fun r => exists q', r = Some q' /\ is_vec q' n Qf).
Proof.
  intros Hn HP Hp Lq. unfold compute_Pinv. wb.
  apply (wp_for_le (fun k q' => zlen q' = n /\
    (forall j, 0 <= j < k -> rd q' (Pf j) = Ok j))); auto.
  - split; auto. intros; lia.
  - intros k q' Hk [L R]. wb. eapply wp_rd; [apply Hp; auto|].
    pose proof (pf_range _ _ _ HP k Hk).
    apply wp_wr; [lia|]. intros a' L' R'. split; [lia|]. intros j Hj. rewrite R'.
    destruct (Z.eqb_spec (Pf j) (Pf k)) as [E|E].
    + f_equal. rewrite <- (qf_pf _ _ _ HP j), <- (qf_pf _ _ _ HP k), E by lia. reflexivity.
    + apply R. destruct (Z.eq_dec j k); [subst; congruence|lia].
  - intros q' [L R]. wok. exists q'. split; auto. split; auto.
    intros a Ha. rewrite <- (pf_qf _ _ _ HP a Ha) at 1. apply R. apply (qf_range _ _ _ HP a Ha).
Qed.

Definition symst : Type := (arr Z * arr Z * arr Z)%type.

(** State while row [k] is processed; [S] = flagged nodes. *)
Definition SymSt (k : Z) (par lnz : Z -> Z) (S : list Z) (st : symst) : Prop :=
  let '(Parent, Lnz, Flag) := st in
  zlen Parent = n /\ zlen Lnz = n /\ zlen Flag = n /\
  (forall i, 0 <= i <= k -> rd Parent i = Ok (par i)) /\
  (forall i, 0 <= i <= k -> rd Lnz i = Ok (lnz i)) /\
  (forall i, 0 <= i <= k -> exists f, rd Flag i = Ok f /\ f <= k /\ (f = k <-> In i S)).

Arguments SymSt : simpl never.

Lemma SymSt_ext k par lnz lnz' S S' st :
  SymSt k par lnz S st -> (forall i, 0 <= i <= k -> lnz i = lnz' i) ->
  (forall x, In x S <-> In x S') -> SymSt k par lnz' S' st.
Proof.
  destruct st as [[Pa Ln] Fl]. intros [L1 [L2 [L3 [R1 [R2 R3]]]]] E ES. repeat split; auto.
  - intros i Hi. rewrite <- E by auto. auto.
  - intros i Hi. destruct (R3 i Hi) as [f [E1 [E2 E3]]]. exists f. split; auto. split; auto.
    rewrite <- ES. auto.
Qed.

Definition par_bd (k : Z) (par : Z -> Z) : Prop :=
  forall x, 0 <= x < k -> par x = -1 \/ x < par x <= k.

Lemma sym_walk_ok k : 0 <= k < n -> forall fuel par lnz S i st,
  In k S -> SymSt k par lnz S st -> par_bd k par -> 0 <= i <= k ->
  (Z.to_nat (k - i) <= fuel)%nat ->
  wp (sym_walk fuel k i st) (fun st' => exists par',
    let vis := path (Datatypes.S fuel) par' S i in
    par_ext par par' /\ par_bd k par' /\
    (forall x, par' x = par x \/ (par' x = k /\ In x vis)) /\
    (forall x, In x vis -> 0 <= x < k /\ x < par' x <= k) /\
    SymSt k par' (fun x => lnz x + if inb x vis then 1 else 0) (vis ++ S) st').
Proof.
  intros Hk. induction fuel as [|fuel IH]; intros par lnz S i [[Pa Ln] Fl] HkS HS HB Hi Hf;
    pose proof HS as [L1 [L2 [L3 [R1 [R2 R3]]]]].
  - assert (i = k) by lia. subst i.
    destruct (R3 k ltac:(lia)) as [f [E1 [E2 E3]]]. simpl. rewrite E1. simpl.
    assert (f = k) by tauto. subst f. rewrite Z.eqb_refl. simpl. exists par.
    replace (inb k S) with true by (symmetry; apply inb_true; auto).
    simpl. split; [apply par_ext_refl|]. split; auto. split; [auto|]. split; [tauto|].
    eapply SymSt_ext; [exact HS| |tauto]. intros; simpl; lia.
  - destruct (R3 i ltac:(lia)) as [f [E1 [E2 E3]]].
    cbn [sym_walk]. rewrite E1. simpl bind.
    destruct (Z.eqb_spec f k) as [Efk|Efk].
    + simpl. exists par.
      replace (inb i S) with true by (symmetry; apply inb_true; tauto).
      simpl. split; [apply par_ext_refl|]. split; auto. split; [auto|]. split; [tauto|].
      eapply SymSt_ext; [exact HS| |tauto]. intros; simpl; lia.
    + assert (HnS : ~ In i S) by tauto.
      assert (Hik : i < k) by (destruct (Z.eq_dec i k); [subst; tauto|lia]).
      wb. eapply wp_rd; [apply R1; lia|].
      set (par1 := fun x => if x =? i then (if par i =? -1 then k else par i) else par x).
      assert (Hpi : i < par1 i <= k).
      { unfold par1. rewrite Z.eqb_refl. destruct (Z.eqb_spec (par i) (-1)); [lia|].
        destruct (HB i ltac:(lia)); lia. }
      assert (HE1 : par_ext par par1).
      { intros x Hx. unfold par1. destruct (Z.eqb_spec x i); auto. subst x.
        destruct (Z.eqb_spec (par i) (-1)); auto. congruence. }
      wb. apply (wp_mono _ (fun Pa' => zlen Pa' = n /\ forall x, 0 <= x <= k -> rd Pa' x = Ok (par1 x))).
      { unfold par1. destruct (Z.eqb_spec (par i) (-1)).
        - apply wp_wr; [lia|]. intros a' L' R'. split; [lia|]. intros x Hx. rewrite R'.
          destruct (x =? i); auto.
        - wok. split; auto. intros x Hx. destruct (Z.eqb_spec x i); [subst|]; apply R1; auto. }
      intros Pa' [LP RP].
      wb. eapply wp_rd; [apply R2; lia|].
      wb. apply wp_wr; [lia|]. intros Ln' LL RL.
      wb. apply wp_wr; [lia|]. intros Fl' LF RF.
      wb. eapply wp_rd; [apply RP; lia|].
      eapply wp_mono.
      { apply (IH par1 (fun x => if x =? i then lnz i + 1 else lnz x) (i :: S)).
        - simpl; auto.
        - split; [auto|]. split; [lia|]. split; [lia|]. split; [auto|]. split.
          + intros x Hx. rewrite RL. destruct (x =? i); auto.
          + intros x Hx. rewrite RF. destruct (Z.eqb_spec x i).
            * subst. exists k. split; auto. split; [lia|]. simpl. tauto.
            * destruct (R3 x Hx) as [g [G1 [G2 G3]]]. exists g. split; auto. split; auto.
              rewrite G3. simpl. intuition congruence.
        - intros x Hx. unfold par1. destruct (Z.eqb_spec x i).
          + subst x. right. unfold par1 in Hpi. rewrite Z.eqb_refl in Hpi. exact Hpi.
          + apply HB. auto.
        - lia.
        - lia. }
      intros st' [par' [HE [HB' [HX [HV HS']]]]]. exists par'.
      assert (Ei : par' i = par1 i) by (apply HE; lia).
      assert (Ev : path (Datatypes.S (Datatypes.S fuel)) par' S i =
                   i :: path (Datatypes.S fuel) par' (i :: S) (par1 i)).
      { cbn [path]. replace (inb i S) with false by (symmetry; apply inb_false; auto).
        rewrite Ei. reflexivity. }
      cbv zeta. rewrite Ev. set (vis1 := path (Datatypes.S fuel) par' (i :: S) (par1 i)) in *.
      assert (Hni : ~ In i vis1).
      { intros H. apply path_notin in H. simpl in H. tauto. }
      split; [eapply par_ext_trans; eauto|]. split; auto. split; [|split].
      * intros x. destruct (HX x) as [H|[H H']].
        -- rewrite H. unfold par1. destruct (Z.eqb_spec x i); auto. subst x.
           destruct (Z.eqb_spec (par i) (-1)); auto. right. split; auto. simpl. auto.
        -- right. split; auto. simpl. auto.
      * intros x [<-|Hx]; [rewrite Ei; lia|]. apply HV. auto.
      * eapply SymSt_ext; [exact HS'| |].
        -- intros x Hx. simpl. destruct (Z.eqb_spec x i).
           ++ subst x. replace (inb i vis1) with false by (symmetry; apply inb_false; auto).
              replace (inb i (i :: vis1)) with true by (symmetry; apply inb_true; simpl; auto). lia.
           ++ f_equal. rewrite (inb_ext x vis1 (i :: vis1)); auto. simpl. intuition congruence.
        -- intros x. rewrite in_app_iff. simpl. rewrite in_app_iff. tauto.
Qed.

(** Row [k]: loop over the entries of column P k. *)
Lemma sym_row_ok {F} Ap Ai (Ax : arr F) col Pf Qf P Pinv k par lnz st :
  0 <= k < n -> Csc Ap Ai Ax n col -> rows_in n n col -> isperm n Pf Qf -> pget P Pf -> pget Pinv Qf ->
  SymSt k par lnz [k] st -> par_bd k par ->
  wp (kk <- perm_get P k ;;
      p2 <- rd Ap (kk + 1) ;;
      p1 <- rd Ap kk ;;
      for_ p1 p2 (fun p st =>
        a <- rd Ai p ;;
        i <- perm_get Pinv a ;;
        if i <? k then sym_walk (S (Z.to_nat n)) k i st else Ok st) st)
     (fun st' => exists par', let acc := patlist n par' (brows Pf Qf col k) k in
        par_ext par par' /\ par_bd k par' /\ topo par' k acc /\
        (forall x, par' x = par x \/ (par' x = k /\ In x acc)) /\
        SymSt k par' (fun x => lnz x + if inb x acc then 1 else 0) (k :: acc) st').
Proof.
  intros Hk C HR HP HgP HgQ HS HB.
  wb. rewrite (HgP k Hk). wok. pose proof (pf_range _ _ _ HP k Hk) as HPk.
  wb. eapply wp_rd; [apply (csc_jc _ _ _ _ _ C); lia|].
  wb. eapply wp_rd; [apply (csc_jc _ _ _ _ _ C); lia|].
  eapply (wp_col _ _ _ _ _ (Pf k) (fun done st' => exists par',
        let acc := patlist n par' (map (fun e => Qf (fst e)) done) k in
        par_ext par par' /\ par_bd k par' /\ topo par' k acc /\
        (forall x, par' x = par x \/ (par' x = k /\ In x acc)) /\
        SymSt k par' (fun x => lnz x + if inb x acc then 1 else 0) (k :: acc) st')); eauto.
  - exists par. simpl. split; [apply par_ext_refl|]. split; auto. split; [apply topo_nil|]. split; auto.
    eapply SymSt_ext; [exact HS| |tauto]. intros; simpl; lia.
  - intros done r v rest st1 E R1 R2 [par1 [HE [HB1 [HT [HX HS1]]]]].
    wb. eapply wp_rd; [exact R1|].
    assert (Hr : 0 <= r < n) by (eapply HR; [exact HPk|rewrite E; apply in_elt]).
    wb. rewrite (HgQ r Hr). wok. pose proof (qf_range _ _ _ HP r Hr) as HQ.
    rewrite map_app. unfold patlist. cbn [map fst].
    destruct (Z.ltb_spec (Qf r) k) as [Hlt|Hge].
    + eapply wp_mono.
      { eapply (sym_walk_ok k Hk); [|exact HS1|exact HB1|lia|lia]. left. reflexivity. }
      intros st2 [par2 [HE2 [HB2 [HX2 [HV HS2]]]]]. exists par2.
      set (acc := patlist n par1 (map (fun e => Qf (fst e)) done) k) in *.
      assert (Eacc : fold_left (pstep n par2 k) (map (fun e => Qf (fst e)) done) [] = acc).
      { apply fold_pstep_par_ext; auto. intros x Hx. eapply topo_not_m1; eauto. }
      cbv zeta. rewrite fold_left_app. rewrite Eacc. simpl fold_left.
      unfold pstep. destruct (Z.ltb_spec (Qf r) k); [|lia].
      set (vis := path (S (S (Z.to_nat n))) par2 (k :: acc) (Qf r)) in *.
      split; [eapply par_ext_trans; eauto|]. split; auto. split.
      { apply path_topo.
        - eapply topo_par_ext; eauto.
        - lia.
        - intros x Hx Hin. apply HV. auto.
        - lia. }
      split.
      { intros x. destruct (HX2 x) as [H2|[H2 H2']].
        - rewrite H2. destruct (HX x) as [H3|[H3 H3']]; auto. right. split; auto.
          apply in_or_app. auto.
        - right. split; auto. apply in_or_app. auto. }
      eapply SymSt_ext; [exact HS2| |].
      * intros x Hx. cbv beta.
        assert (Hdis : inb x vis = true -> inb x acc = true -> False).
        { intros I1 I2. apply inb_true in I1. apply inb_true in I2. apply path_notin in I1. simpl in I1. tauto. }
        assert (Hor : inb x (vis ++ acc) = inb x vis || inb x acc).
        { destruct (inb x (vis ++ acc)) eqn:I.
          - apply inb_true in I. symmetry. apply orb_true_iff. rewrite !inb_true. apply in_app_or. auto.
          - apply inb_false in I. symmetry. apply orb_false_iff. rewrite !inb_false.
            rewrite in_app_iff in I. tauto. }
        rewrite Hor. destruct (inb x vis), (inb x acc); simpl; try lia.
      * intros x. rewrite in_app_iff. simpl. rewrite in_app_iff. tauto.
    + wok. exists par1. cbv zeta. rewrite fold_left_app. simpl.
      unfold pstep at 1 3 5 7. destruct (Z.ltb_spec (Qf r) k); [lia|]. auto.
Qed.

(** State between rows. *)
Definition RowSt (rows : Z -> list Z) (k : Z) (par : Z -> Z) (st : symst) : Prop :=
  let '(Parent, Lnz, Flag) := st in
  zlen Parent = n /\ zlen Lnz = n /\ zlen Flag = n /\
  (forall i, 0 <= i < k -> rd Parent i = Ok (par i)) /\
  (forall i, 0 <= i < k -> rd Lnz i = Ok (lcnt n par rows k i)) /\
  (forall i, 0 <= i < k -> exists f, rd Flag i = Ok f /\ f < k).

Lemma LDL_symbolic_ok {F} Ap Ai (Ax : arr F) col Pf Qf Lp Parent Lnz Flag P Pinv :
  0 <= n -> Csc Ap Ai Ax n col -> rows_in n n col -> isperm n Pf Qf ->
  zlen Lp = n + 1 -> zlen Parent = n -> zlen Lnz = n -> zlen Flag = n ->
  (match P with
   | Some p => vec p n Pf /\ exists q, Pinv = Some q /\ zlen q = n
   | None => (forall k, 0 <= k < n -> Pf k = k) /\ Pinv = None
   end) ->
  wp (LDL_symbolic n Ap Ai Lp Parent Lnz Flag P Pinv)
     (fun r => let '(Lp', Parent', Lnz', Flag', Pinv') := r in
        exists par, forest n par (brows Pf Qf col) /\ (forall i, n <= i -> par i = -1) /\
          is_vec Parent' n par /\
          is_vec Lnz' n (lcnt n par (brows Pf Qf col) n) /\
          is_vec Lp' (n + 1) (fun j => sumz (lcnt n par (brows Pf Qf col) n) (zr 0 j)) /\
          zlen Flag' = n /\ pget Pinv' Qf /\
          (match P with Some _ => exists q, Pinv' = Some q /\ is_vec q n Qf | None => Pinv' = None end)).
Proof.
  intros Hn C HR HP LLp LPa LLn LFl HPP. unfold LDL_symbolic. wb.
  apply (wp_mono _ (fun Pinv' => pget Pinv' Qf /\ pget P Pf /\
     match P with Some _ => exists q, Pinv' = Some q /\ is_vec q n Qf | None => Pinv' = None end)).
  { destruct P as [p|].
    - destruct HPP as [Hp [q [-> Lq]]]. eapply wp_mono; [apply (compute_Pinv_ok p q Pf Qf); auto|].
      intros r [q' [-> Hq]]. split; [|split].
      + intros k Hk. simpl. apply Hq. auto.
      + intros k Hk. simpl. apply Hp. auto.
      + eauto.
    - destruct HPP as [Hp ->]. simpl. split; [|split].
      + intros k Hk. simpl. f_equal. rewrite <- (qf_pf _ _ _ HP k Hk) at 1. rewrite (Hp k Hk). reflexivity.
      + intros k Hk. simpl. f_equal. symmetry. auto.
      + auto. }
  clear HPP. intros Pinv' [HgQ [HgP Hres]].
  set (rows := brows Pf Qf col). wb.
  apply (wp_for_le (fun k st => exists par,
     (forall i, 0 <= i < k -> par i = -1 \/ i < par i < k) /\
     (forall i, k <= i -> par i = -1) /\
     (forall k', 0 <= k' < k -> topo par k' (patlist n par (rows k') k')) /\
     (forall i k', 0 <= i < n -> par i = k' -> k' <> -1 -> In i (patlist n par (rows k') k')) /\
     RowSt rows k par st)); auto.
  - exists (fun _ => -1). repeat split; auto; try (intros; lia).
  - intros k [[Pa Ln] Fl] Hk [par [B1 [B2 [B3 [B4 [L1 [L2 [L3 [R1 [R2 R3]]]]]]]]]].
    wb. apply wp_wr; [lia|]. intros Pa1 LP RP.
    wb. apply wp_wr; [lia|]. intros Fl1 LF RF.
    wb. apply wp_wr; [lia|]. intros Ln1 LL RL.
    assert (Z0 : lcnt n par rows k k = 0).
    { unfold lcnt, cnt. apply sumz_zero. intros x Hx. apply in_zr in Hx.
      destruct (inb k (patlist n par (rows x) x)) eqn:E; auto. apply inb_true in E.
      apply (B3 x Hx) in E. lia. }
    eapply wp_mono.
    { eapply (sym_row_ok Ap Ai Ax col Pf Qf P Pinv' k par (lcnt n par rows k)); eauto.
      - split; [lia|]. split; [lia|]. split; [lia|]. split; [|split].
        + intros i Hi. rewrite RP. destruct (Z.eqb_spec i k); [subst; rewrite B2 by lia; auto|]. apply R1; lia.
        + intros i Hi. rewrite RL. destruct (Z.eqb_spec i k); [subst; rewrite Z0; auto|]. apply R2; lia.
        + intros i Hi. rewrite RF. destruct (Z.eqb_spec i k).
          * subst. exists k. split; auto. split; [lia|]. simpl. tauto.
          * destruct (R3 i ltac:(lia)) as [f [G1 G2]]. exists f. split; auto. split; [lia|].
            simpl. split; intros; lia.
      - intros x Hx. destruct (B1 x Hx); [auto|right; lia]. }
    intros [[Pa2 Ln2] Fl2] [par' [HE [HB [HT [HX [M1 [M2 [M3 [Q1 [Q2 Q3]]]]]]]]]].
    fold rows in HT, HX, Q2, Q3.
    assert (EP : forall k', 0 <= k' < k -> patlist n par' (rows k') k' = patlist n par (rows k') k').
    { intros k' Hk'. apply patlist_par_ext; auto. intros x Hx. eapply topo_not_m1; [apply B3; eauto|auto]. }
    assert (Hout : forall i, k <= i -> par' i = -1).
    { intros i Hi. destruct (HX i) as [E|[E E']]; [rewrite E; auto|].
      apply HT in E'. lia. }
    assert (EL : forall i, lcnt n par' rows k i = lcnt n par rows k i).
    { intros i. unfold lcnt, cnt. apply sumz_ext. intros x Hx. apply in_zr in Hx. rewrite EP by lia. auto. }
    exists par'. split; [|split; [|split; [|split]]].
    + intros i Hi. destruct (Z.eq_dec i k) as [->|]; [left; auto with zarith|].
      * destruct (HB i ltac:(lia)); [auto|right; lia].
    + intros i Hi. apply Hout. lia.
    + intros k' Hk'. destruct (Z.eq_dec k' k) as [->|]; [exact HT|].
      rewrite EP by lia. eapply topo_par_ext; eauto. apply B3. lia.
    + intros i k' Hi E1 E2. destruct (HX i) as [E|[E E']].
      * rewrite E in E1. pose proof (B4 i k' Hi E1 E2) as Hin.
        assert (0 <= k' < k).
        { destruct (Z.lt_ge_cases i k) as [H|H]; [|rewrite (B2 i H) in E1; lia].
          destruct (B1 i ltac:(lia)); lia. }
        rewrite EP by auto. auto.
      * rewrite E in E1. subst k'. auto.
    + split; [auto|]. split; [auto|]. split; [auto|]. split; [|split].
      * intros i Hi. apply Q1. lia.
      * intros i Hi. rewrite Q2 by lia. rewrite lcnt_succ, EL by lia. reflexivity.
      * intros i Hi. destruct (Q3 i ltac:(lia)) as [f [G1 [G2 _]]]. exists f. split; auto. lia.
  - intros [[Pa Ln] Fl] [par [B1 [B2 [B3 [B4 [L1 [L2 [L3 [R1 [R2 R3]]]]]]]]]].
    wb. apply wp_wr; [lia|]. intros Lp1 LL RL.
    wb. apply (wp_for_le (fun k Lp' => zlen Lp' = n + 1 /\
        forall j, 0 <= j <= k -> rd Lp' j = Ok (sumz (lcnt n par rows n) (zr 0 j)))); auto.
    + split; [lia|]. intros j Hj. rewrite RL. destruct (Z.eqb_spec j 0); [subst; reflexivity|lia].
    + intros k Lp' Hk [L R]. wb. eapply wp_rd; [apply R; lia|]. wb. eapply wp_rd; [apply R2; lia|].
      apply wp_wr; [lia|]. intros a' L' R'. split; [lia|]. intros j Hj. rewrite R'.
      destruct (Z.eqb_spec j (k + 1)).
      * subst j. rewrite zr_snoc, sumz_app by lia. simpl. f_equal. lia.
      * apply R. lia.
    + intros Lp' [L R]. wok. exists par. split.
      { split; auto. }
      split; auto. split; [split; auto|]. split; [split; auto|]. split.
      { split; auto. intros j Hj. apply R. lia. }
      split; auto.
Qed.

End Sym.
