(** LDL_numeric: the arrays it leaves behind hold a solution of the factorisation recurrences, for
    every arithmetic. *)
From Coq Require Import ZArith List Lia Bool.
From Verif Require Import Res Arith Lists MSparse Csc SemVec MLdl LdlSpec LdlSym.
Import ListNotations.
Open Scope Z_scope.
Open Scope res_scope.

(** ** Lists stored in an array *)

Definition holds {T} (a : arr T) (lo : Z) (l : list T) : Prop :=
  forall t x, nth_error l t = Some x -> rd a (lo + Z.of_nat t) = Ok x.

Lemma holds_nil {T} (a : arr T) lo : holds a lo [].
Proof. intros [|t] x H; discriminate. Qed.

Lemma holds_rd {T} (a : arr T) lo l1 x l2 : holds a lo (l1 ++ x :: l2) -> rd a (lo + zlen l1) = Ok x.
Proof. intros H. apply H. rewrite nth_error_app2, Nat.sub_diag by lia. reflexivity. Qed.

Lemma holds_snoc {T} (a : arr T) lo l x : holds a lo l -> rd a (lo + zlen l) = Ok x -> holds a lo (l ++ [x]).
Proof.
  intros H R t y Hy. destruct (Nat.lt_ge_cases t (length l)) as [Ht|Ht].
  - rewrite nth_error_app1 in Hy by auto. auto.
  - rewrite nth_error_app2 in Hy by auto. destruct (t - length l)%nat as [|d] eqn:E.
    + simpl in Hy. inversion Hy; subst. replace (Z.of_nat t) with (zlen l) by (unfold zlen; lia). auto.
    + destruct d; discriminate.
Qed.

Lemma holds_cells {T} (a a' : arr T) lo l :
  holds a lo l -> (forall j, lo <= j < lo + zlen l -> rd a' j = rd a j) -> holds a' lo l.
Proof.
  intros H E t x Hx. rewrite E; auto.
  assert ((t < length l)%nat) by (apply nth_error_Some; congruence). unfold zlen. lia.
Qed.

Lemma wp_list {T St} (a : arr T) lo hi l (Inv : list T -> St -> Prop) (body : Z -> St -> res St) s (Q : St -> Prop) :
  holds a lo l -> hi = lo + zlen l -> Inv [] s ->
  (forall done x rest s, l = done ++ x :: rest -> rd a (lo + zlen done) = Ok x -> Inv done s ->
     wp (body (lo + zlen done) s) (Inv (done ++ [x]))) ->
  (forall s, Inv l s -> Q s) ->
  wp (for_ lo hi body s) Q.
Proof.
  intros H -> H0 Hs HQ. pose proof (zlen_nonneg l).
  apply (wp_for_le (fun i s => exists done rest, l = done ++ rest /\ i = lo + zlen done /\ Inv done s)).
  - lia.
  - exists [], l. rewrite zlen_nil. repeat split; auto. lia.
  - intros i s' Hi [done [rest [E [-> HI]]]]. destruct rest as [|x rest].
    { rewrite app_nil_r in E. rewrite <- E in Hi. lia. }
    eapply wp_mono.
    + eapply Hs; eauto. rewrite E in H. eapply holds_rd; eauto.
    + simpl. intros s2 H2. exists (done ++ [x]), rest. rewrite <- app_assoc. split; [exact E|]. split; auto.
      rewrite zlen_app, zlen_cons, zlen_nil. lia.
  - intros s' [done [rest [E [Hi HI]]]].
    assert (rest = []).
    { destruct rest; auto. rewrite E, zlen_app, zlen_cons in Hi. pose proof (zlen_nonneg rest). lia. }
    subst rest. rewrite app_nil_r in E. subst. auto.
Qed.

(** ** The recurrences *)

Section Num.
Variable A : Arith.
Notation F := (car A).
Notation zero := (f0 A).
Variables (n : Z) (col : cols F) (Pf Qf par : Z -> Z).
Notation rows := (brows Pf Qf col).
Notation pl := (fun k => patlist n par (rows k) k).

Definition lnzf (i : Z) : Z := lcnt n par rows n i.
Definition Lpf (j : Z) : Z := sumz lnzf (zr 0 j).

(** Rows before [k] of column [i] of the factor. *)
Definition lrows (k i : Z) : list Z := filter (fun r => inb i (pl r)) (zr 0 k).

(** Permuted column k scattered, seen at row [r]. *)
Definition y0 (k r : Z) : F :=
  fold_left (fun acc e => if fst e =? r then fadd A acc (snd e) else acc) (bcol Pf Qf col k) zero.

Definition yfold (Lv : Z -> Z -> F) (yk : Z -> F) (k : Z) (l : list Z) (r : Z) : F :=
  fold_left (fun acc j => if inb j (pl r) then fsub A acc (fmul A (Lv r j) (yk j)) else acc) l (y0 k r).

Definition dfold (Lk yk : Z -> F) (k : Z) (l : list Z) : F :=
  fold_left (fun d i => fsub A d (fmul A (Lk i) (yk i))) l (y0 k k).

Record RowSpec (k : Z) (y Lv : Z -> Z -> F) (Dv : Z -> F) : Prop := mkRowSpec {
  rs_y : forall l1 i l2, pl k = l1 ++ i :: l2 -> y k i = yfold Lv (y k) k l1 i;
  rs_L : forall i, In i (pl k) -> fdiv A (y k i) (Dv i) = Ok (Lv k i);
  rs_D : Dv k = regularize A (dfold (Lv k) (y k) k (pl k))
}.

Definition NumSpec (y Lv : Z -> Z -> F) (Dv : Z -> F) : Prop := forall k, 0 <= k < n -> RowSpec k y Lv Dv.

(** Division by a regularised pivot succeeds. *)
Definition div_ok : Prop := forall x d, exists q, fdiv A x (regularize A d) = Ok q.

Hypothesis HF : forest n par rows.

Lemma pl_in k i : 0 <= k < n -> In i (pl k) -> 0 <= i < k.
Proof. intros Hk Hi. apply (fo_topo _ _ _ HF k Hk). exact Hi. Qed.

Lemma pl_nodup k : 0 <= k < n -> NoDup (pl k).
Proof. intros Hk. apply (fo_topo _ _ _ HF k Hk). Qed.

Lemma yfold_ext Lv Lv' yk yk' k l r :
  (forall j, In j l -> In j (pl r) -> Lv r j = Lv' r j) -> (forall j, In j l -> yk j = yk' j) ->
  yfold Lv yk k l r = yfold Lv' yk' k l r.
Proof.
  intros H1 H2. apply fold_left_ext_in. intros s x Hx. destruct (inb x (pl r)) eqn:E; auto.
  apply inb_true in E. rewrite H1, H2; auto.
Qed.

Lemma dfold_ext Lk Lk' yk yk' k l :
  (forall j, In j l -> Lk j = Lk' j) -> (forall j, In j l -> yk j = yk' j) -> dfold Lk yk k l = dfold Lk' yk' k l.
Proof. intros H1 H2. apply fold_left_ext_in. intros s x Hx. rewrite H1, H2; auto. Qed.

Lemma row_y_exists Lv k l : NoDup l ->
  exists yk, forall l1 i l2, l = l1 ++ i :: l2 -> yk i = yfold Lv yk k l1 i.
Proof.
  induction l as [|x l IH] using rev_ind; intros ND.
  - exists (fun _ => zero). intros [|] i l2 H; discriminate H.
  - apply NoDup_remove in ND. rewrite app_nil_r in ND. destruct ND as [ND Hx].
    destruct (IH ND) as [yk Hyk].
    exists (fun i => if i =? x then yfold Lv yk k l x else yk i).
    intros l1 i l2 E.
    assert (D : (l2 = [] /\ l1 = l /\ i = x) \/ exists l2', l = l1 ++ i :: l2').
    { destruct l2 as [|z l2] using rev_ind.
      - left. apply app_inj_tail in E. destruct E; subst; auto.
      - right. clear IHl2. exists l2. rewrite app_comm_cons, app_assoc in E. apply app_inj_tail in E. tauto. }
    destruct D as [[-> [-> ->]]|[l2' ->]].
    + rewrite Z.eqb_refl. apply yfold_ext; auto. intros j Hj. destruct (Z.eqb_spec j x); auto. subst; tauto.
    + destruct (Z.eqb_spec i x) as [->|]; [exfalso; apply Hx; apply in_elt|].
      rewrite (Hyk l1 i l2') by auto. apply yfold_ext; auto.
      intros j Hj. destruct (Z.eqb_spec j x); auto. subst. exfalso. apply Hx. apply in_or_app. auto.
Qed.

Lemma RowSpec_ext k y y' Lv Lv' Dv Dv' :
  0 <= k < n ->
  (forall r i, 0 <= r <= k -> y r i = y' r i) -> (forall r i, 0 <= r <= k -> Lv r i = Lv' r i) ->
  (forall i, 0 <= i <= k -> Dv i = Dv' i) ->
  RowSpec k y Lv Dv -> RowSpec k y' Lv' Dv'.
Proof.
  intros Hk Ey EL ED [H1 H2 H3]. split.
  - intros l1 i l2 E. rewrite <- Ey by lia. rewrite (H1 _ _ _ E).
    assert (0 <= i < k) by (apply pl_in; auto; rewrite E; apply in_elt).
    apply yfold_ext; intros; [apply EL; lia|apply Ey; lia].
  - intros i Hi. pose proof (pl_in k i Hk Hi). rewrite <- Ey, <- ED, <- EL by lia. auto.
  - rewrite <- ED by lia. rewrite H3. f_equal. apply dfold_ext; intros; [apply EL|apply Ey]; lia.
Qed.

Lemma num_exists : div_ok -> 0 <= n -> exists y Lv Dv, NumSpec y Lv Dv.
Proof.
  intros Hdiv Hn.
  assert (G : forall m, 0 <= m -> m <= n -> exists y Lv Dv, forall k, 0 <= k < m -> RowSpec k y Lv Dv).
  { apply (zr_ind (fun m => m <= n -> exists y Lv Dv, forall k, 0 <= k < m -> RowSpec k y Lv Dv)).
    - intros _. exists (fun _ _ => zero), (fun _ _ => zero), (fun _ => zero). intros; lia.
    - intros m Hm IH Hmn. destruct (IH ltac:(lia)) as [y [Lv [Dv H]]].
      destruct (row_y_exists Lv m (pl m) (pl_nodup m ltac:(lia))) as [ym Hym].
      set (Lm := fun i => match fdiv A (ym i) (Dv i) with Ok q => q | _ => zero end).
      set (dm := regularize A (dfold Lm ym m (pl m))).
      set (y' := fun r i => if r =? m then ym i else y r i).
      set (Lv' := fun r i => if r =? m then Lm i else Lv r i).
      set (Dv' := fun i => if i =? m then dm else Dv i).
      exists y', Lv', Dv'. intros k Hk.
      destruct (Z.eq_dec k m) as [->|].
      + assert (Hlt : forall i, In i (pl m) -> 0 <= i < m) by (intros; apply pl_in; auto; lia).
        split.
        * intros l1 i l2 E. unfold y' at 1. rewrite Z.eqb_refl. rewrite (Hym _ _ _ E).
          assert (0 <= i < m) by (apply Hlt; rewrite E; apply in_elt).
          apply yfold_ext; intros.
          -- unfold Lv'. destruct (Z.eqb_spec i m); [lia|auto].
          -- unfold y'. rewrite Z.eqb_refl. auto.
        * intros i Hi. pose proof (Hlt i Hi). unfold y', Dv', Lv'. rewrite Z.eqb_refl.
          destruct (Z.eqb_spec i m); [lia|]. unfold Lm.
          rewrite (rs_D _ _ _ _ (H i ltac:(lia))).
          destruct (Hdiv (ym i) (dfold (Lv i) (y i) i (pl i))) as [q Eq]. rewrite Eq. reflexivity.
        * unfold Dv' at 1. rewrite Z.eqb_refl. unfold dm. f_equal. apply dfold_ext; intros.
          -- unfold Lv'. rewrite Z.eqb_refl. auto.
          -- unfold y'. rewrite Z.eqb_refl. auto.
      + eapply RowSpec_ext; [| | | |apply (H k); lia]; try lia; intros.
        * unfold y'. destruct (Z.eqb_spec r m); [lia|auto].
        * unfold Lv'. destruct (Z.eqb_spec r m); [lia|auto].
        * unfold Dv'. destruct (Z.eqb_spec i m); [lia|auto]. }
  apply G; lia.
Qed.

Lemma num_unique y Lv Dv y' Lv' Dv' :
  NumSpec y Lv Dv -> NumSpec y' Lv' Dv' ->
  forall k, 0 <= k < n ->
    (forall i, In i (pl k) -> y k i = y' k i /\ Lv k i = Lv' k i) /\ Dv k = Dv' k.
Proof.
  intros H H' k Hk. 
  assert (G : forall m, 0 <= m -> m <= n -> forall k, 0 <= k < m ->
     (forall i, In i (pl k) -> y k i = y' k i /\ Lv k i = Lv' k i) /\ Dv k = Dv' k).
  { apply (zr_ind (fun m => m <= n -> forall k, 0 <= k < m ->
     (forall i, In i (pl k) -> y k i = y' k i /\ Lv k i = Lv' k i) /\ Dv k = Dv' k)).
    - intros; lia.
    - clear k Hk. intros m Hm IH Hmn k Hk. specialize (IH ltac:(lia)).
      destruct (Z.eq_dec k m) as [->|]; [|apply IH; lia].
      pose proof (H m ltac:(lia)) as [A1 A2 A3]. pose proof (H' m ltac:(lia)) as [B1 B2 B3].
      assert (Hy : forall l1 l2, pl m = l1 ++ l2 -> forall i, In i l1 -> y m i = y' m i).
      { induction l1 as [|x l1 IHl] using rev_ind; intros l2 E i Hi; [destruct Hi|].
        rewrite <- app_assoc in E. simpl in E.
        apply in_app_or in Hi. destruct Hi as [Hi|[<-|[]]]; [eapply IHl; eauto|].
        rewrite (A1 _ _ _ E), (B1 _ _ _ E). apply yfold_ext.
        - intros j Hj Hjx. apply IH; auto.
          assert (0 <= x < m) by (apply pl_in; [lia|]; rewrite E; apply in_elt). lia.
        - intros j Hj. eapply IHl; eauto. }
      assert (Hy' : forall i, In i (pl m) -> y m i = y' m i).
      { intros i Hi. eapply (Hy (pl m) []); [rewrite app_nil_r; reflexivity|auto]. }
      assert (HL : forall i, In i (pl m) -> Lv m i = Lv' m i).
      { intros i Hi. pose proof (A2 i Hi) as E1. pose proof (B2 i Hi) as E2.
        pose proof (pl_in m i ltac:(lia) Hi).
        rewrite (Hy' i Hi), (proj2 (IH i ltac:(lia))) in E1. congruence. }
      split; auto. rewrite A3, B3. f_equal. apply dfold_ext; auto. }
  apply (G n); lia.
Qed.

(** ** Counting and positions *)

Lemma lrows_succ k i : 0 <= k -> lrows (k + 1) i = lrows k i ++ (if inb i (pl k) then [k] else []).
Proof. intros H. unfold lrows. rewrite zr_snoc, filter_app by lia. simpl. destruct (inb i (pl k)); auto. Qed.

Lemma zlen_lrows k i : zlen (lrows k i) = lcnt n par rows k i.
Proof. unfold lcnt. rewrite cnt_filter. reflexivity. Qed.

Lemma in_lrows k i r : In r (lrows k i) <-> 0 <= r < k /\ In i (pl r).
Proof. unfold lrows. rewrite filter_In, in_zr, inb_true. tauto. Qed.

Lemma NoDup_lrows k i : NoDup (lrows k i).
Proof. apply NoDup_filter. apply NoDup_zr. Qed.

Lemma lrows_out k i : k <= n -> k <= i + 1 -> lrows k i = [].
Proof.
  intros Hk H. destruct (lrows k i) as [|r l] eqn:E; auto. exfalso.
  assert (Hin : In r (lrows k i)) by (rewrite E; simpl; auto).
  apply in_lrows in Hin. destruct Hin as [Hr Hin]. apply pl_in in Hin; lia.
Qed.

Lemma lcnt_nonneg k i : 0 <= lcnt n par rows k i.
Proof. apply cnt_nonneg. Qed.

Lemma lcnt_mono a b i : 0 <= a <= b -> lcnt n par rows a i <= lcnt n par rows b i.
Proof. intros H. apply sumz_mono_zr; auto. intros x _. destruct (inb i _); lia. Qed.

Lemma Lpf_succ j : 0 <= j -> Lpf (j + 1) = Lpf j + lnzf j.
Proof. intros H. unfold Lpf. rewrite zr_snoc, sumz_app by lia. simpl. lia. Qed.

Lemma Lpf_mono a b : 0 <= a <= b -> Lpf a <= Lpf b.
Proof. intros H. apply sumz_mono_zr; auto. intros. apply lcnt_nonneg. Qed.

Lemma Lpf_nonneg j : 0 <= Lpf j.
Proof. apply sumz_nonneg. intros. apply lcnt_nonneg. Qed.

(** Slot of row [k] in column [i]. *)
Lemma slot_bound k i : 0 <= k < n -> In i (pl k) ->
  Lpf i + lcnt n par rows k i < Lpf (i + 1) /\ Lpf (i + 1) <= Lpf n.
Proof.
  intros Hk Hi. pose proof (pl_in k i Hk Hi). rewrite Lpf_succ by lia.
  pose proof (lcnt_mono (k + 1) n i ltac:(lia)). rewrite lcnt_succ in H0 by lia.
  apply inb_true in Hi. rewrite Hi in H0. unfold lnzf.
  pose proof (Lpf_mono (i + 1) n ltac:(lia)). rewrite Lpf_succ in H1 by lia. unfold lnzf in H1. lia.
Qed.

(** ** Walking up the forest *)

Definition FlagSt (k : Z) (S : list Z) (Flag : arr Z) : Prop :=
  zlen Flag = n /\ forall i, 0 <= i <= k -> exists f, rd Flag i = Ok f /\ f <= k /\ (f = k <-> In i S).

Lemma FlagSt_ext k S S' Flag : FlagSt k S Flag -> (forall x, In x S <-> In x S') -> FlagSt k S' Flag.
Proof.
  intros [L R] E. split; auto. intros i Hi. destruct (R i Hi) as [f [E1 [E2 E3]]]. exists f.
  split; auto. split; auto. rewrite <- E. auto.
Qed.

Lemma num_walk_ok Parent k acc : 0 <= k < n -> vec Parent n par ->
  forall fuel v i Pattern Flag,
  FlagSt k (v ++ k :: acc) Flag -> zlen Pattern = n ->
  holds Pattern 0 v -> holds Pattern (n - zlen acc) acc ->
  NoDup (v ++ acc) -> (forall x, In x (v ++ acc) -> 0 <= x < k) ->
  0 <= i <= k -> (Z.to_nat (k - i) <= fuel)%nat ->
  (forall x, In x (path (S fuel) par (v ++ k :: acc) i) -> 0 <= x < k /\ x < par x <= k) ->
  wp (num_walk fuel Parent k i (Pattern, Flag, zlen v)) (fun st' =>
    let '(Pattern', Flag', len') := st' in
    let v' := v ++ path (S fuel) par (v ++ k :: acc) i in
    FlagSt k (v' ++ k :: acc) Flag' /\ zlen Pattern' = n /\ len' = zlen v' /\
    holds Pattern' 0 v' /\ holds Pattern' (n - zlen acc) acc).
Proof.
  intros Hk HPa. induction fuel as [|fuel IH]; intros v i Pat Flag HFl LP Hv Hacc ND HB Hi Hf HX.
  - assert (i = k) by lia. subst i. destruct HFl as [LF RF].
    destruct (RF k ltac:(lia)) as [f [E1 [E2 E3]]]. simpl. rewrite E1. simpl.
    assert (Hin : In k (v ++ k :: acc)) by apply in_elt.
    assert (f = k) by tauto. subst f. rewrite Z.eqb_refl. simpl.
    replace (inb k (v ++ k :: acc)) with true by (symmetry; apply inb_true; auto).
    rewrite app_nil_r. repeat split; auto.
  - pose proof HFl as [LF RF]. destruct (RF i ltac:(lia)) as [f [E1 [E2 E3]]].
    cbn [num_walk]. rewrite E1. simpl bind. destruct (Z.eqb_spec f k) as [Efk|Efk].
    + simpl. replace (inb i (v ++ k :: acc)) with true by (symmetry; apply inb_true; tauto).
      rewrite app_nil_r. repeat split; auto.
    + assert (HnS : ~ In i (v ++ k :: acc)) by tauto.
      assert (Hik : i < k) by (destruct (Z.eq_dec i k); [subst; exfalso; apply HnS, in_elt|lia]).
      assert (Ev : path (S (S fuel)) par (v ++ k :: acc) i =
                   i :: path (S fuel) par (i :: v ++ k :: acc) (par i)).
      { cbn [path]. replace (inb i (v ++ k :: acc)) with false by (symmetry; apply inb_false; auto).
        reflexivity. }
      rewrite Ev in HX.
      assert (ND1 : NoDup ((v ++ [i]) ++ acc)).
      { apply (Permutation.Permutation_NoDup (l := i :: v ++ acc)).
        - rewrite <- app_assoc. simpl. apply Permutation.Permutation_middle.
        - constructor; auto. intros Hin. apply HnS. apply in_app_or in Hin. apply in_or_app. simpl. tauto. }
      assert (HB1 : forall x, In x ((v ++ [i]) ++ acc) -> 0 <= x < k).
      { intros x Hx. rewrite <- app_assoc in Hx. apply in_app_or in Hx. simpl in Hx.
        destruct Hx as [Hx|[<-|Hx]]; [| lia |]; apply HB; apply in_or_app; auto. }
      pose proof (NoDup_bounded_length _ 0 k ND1 HB1) as Hlen.
      rewrite !zlen_app, zlen_cons, zlen_nil in Hlen.
      pose proof (zlen_nonneg v). pose proof (zlen_nonneg acc).
      wb. apply wp_wr; [lia|]. intros Pat1 LP1 RP1.
      wb. apply wp_wr; [lia|]. intros Flag1 LF1 RF1.
      wb. eapply wp_rd; [apply HPa; lia|].
      destruct (HX i (or_introl eq_refl)) as [_ Hpi].
      replace (zlen v + 1) with (zlen (v ++ [i])) by (rewrite zlen_app, zlen_cons, zlen_nil; lia).
      assert (Ep : path (S fuel) par ((v ++ [i]) ++ k :: acc) (par i) =
                   path (S fuel) par (i :: v ++ k :: acc) (par i)).
      { apply path_st_ext. intros x. rewrite <- app_assoc. simpl. rewrite !in_app_iff. simpl. tauto. }
      eapply wp_mono.
      { apply IH; auto; try lia.
        - split; [lia|]. intros x Hx. rewrite RF1. destruct (Z.eqb_spec x i).
          + subst x. exists k. split; auto. split; [lia|]. rewrite <- app_assoc. simpl. rewrite in_app_iff. simpl. tauto.
          + destruct (RF x Hx) as [g [G1 [G2 G3]]]. exists g. split; auto. split; auto. rewrite G3.
            rewrite <- app_assoc. simpl. rewrite !in_app_iff. simpl. intuition congruence.
        - apply holds_snoc.
          + eapply holds_cells; [exact Hv|]. intros j Hj. rewrite RP1. destruct (Z.eqb_spec j (zlen v)); [lia|auto].
          + rewrite RP1. destruct (Z.eqb_spec (0 + zlen v) (zlen v)); [auto|lia].
        - eapply holds_cells; [exact Hacc|]. intros j Hj. rewrite RP1. destruct (Z.eqb_spec j (zlen v)); [lia|auto].
        - intros x Hx. apply HX. right. rewrite Ep in Hx. exact Hx. }
      intros [[Pat2 Flag2] len2]. rewrite Ep, Ev.
      set (vs := path (S fuel) par (i :: v ++ k :: acc) (par i)). cbv zeta.
      replace ((v ++ [i]) ++ vs) with (v ++ i :: vs) by (rewrite <- app_assoc; reflexivity). auto.
Qed.

Lemma push_path_ok Pat acc v :
  zlen Pat = n -> zlen v + zlen acc <= n -> holds Pat 0 v -> holds Pat (n - zlen acc) acc ->
  wp (push_path Pat (zlen v) (n - zlen acc)) (fun Pat' =>
    zlen Pat' = n /\ holds Pat' (n - zlen (v ++ acc)) (v ++ acc)).
Proof.
  intros LP Hlen Hv Hacc. pose proof (zlen_nonneg v). pose proof (zlen_nonneg acc).
  unfold push_path. set (top := n - zlen acc) in *.
  apply (wp_for_le (fun t Pat' => zlen Pat' = n /\
     (forall s x, nth_error v s = Some x -> Z.of_nat s < zlen v - t -> rd Pat' (Z.of_nat s) = Ok x) /\
     (forall s x, nth_error v s = Some x -> zlen v - t <= Z.of_nat s ->
         rd Pat' (top - zlen v + Z.of_nat s) = Ok x) /\
     holds Pat' top acc)); auto.
  - split; auto. split; [|split]; auto.
    + intros s x Hx Hs. specialize (Hv s x Hx). exact Hv.
    + intros s x Hx Hs. assert ((s < length v)%nat) by (apply nth_error_Some; congruence). unfold zlen in Hs. lia.
  - intros t Pat' Ht [L [R1 [R2 R3]]].
    destruct (nth_error v (Z.to_nat (zlen v - 1 - t))) as [x|] eqn:E.
    2:{ apply nth_error_None in E. unfold zlen in *. lia. }
    wb. eapply wp_rd.
    { replace (zlen v - 1 - t) with (Z.of_nat (Z.to_nat (zlen v - 1 - t))) by lia. apply R1; [exact E|lia]. }
    apply wp_wr; [lia|]. intros a' L' R'. split; [lia|]. split; [|split].
    + intros s y Hy Hs. rewrite R'. destruct (Z.eqb_spec (Z.of_nat s) (top - 1 - t)); [lia|]. apply R1; auto; lia.
    + intros s y Hy Hs. rewrite R'. destruct (Z.eqb_spec (top - zlen v + Z.of_nat s) (top - 1 - t)).
      * assert (s = Z.to_nat (zlen v - 1 - t)) by lia. subst s. congruence.
      * apply R2; auto. lia.
    + eapply holds_cells; [exact R3|]. intros j Hj. rewrite R'. destruct (Z.eqb_spec j (top - 1 - t)); [lia|auto].
  - intros Pat' [L [R1 [R2 R3]]]. split; auto. rewrite zlen_app.
    intros s x Hx. destruct (Nat.lt_ge_cases s (length v)) as [Hs|Hs].
    + rewrite nth_error_app1 in Hx by auto.
      replace (n - (zlen v + zlen acc) + Z.of_nat s) with (top - zlen v + Z.of_nat s) by (unfold top; lia).
      apply R2; auto. lia.
    + rewrite nth_error_app2 in Hx by auto. apply R3 in Hx. rewrite <- Hx. f_equal. unfold top, zlen. lia.
Qed.

(** ** Scattering column k and finding the pattern of row k *)

Lemma num_scatter_ok Ap Ai (Ax : arr F) Parent P Pinv k Y Pattern Flag :
  0 <= k < n -> Csc Ap Ai Ax n col -> rows_in n n col -> isperm n Pf Qf ->
  pget n P Pf -> pget n Pinv Qf -> vec Parent n par ->
  zlen Y = n -> (forall r, 0 <= r <= k -> rd Y r = Ok zero) ->
  zlen Pattern = n -> FlagSt k [k] Flag ->
  wp (num_scatter A n Ap Ai Ax Parent P Pinv k (Y, Pattern, Flag, n)) (fun st' =>
    let '(Y', Pattern', Flag', top') := st' in
    zlen Y' = n /\ (forall r, 0 <= r <= k -> rd Y' r = Ok (y0 k r)) /\
    zlen Pattern' = n /\ holds Pattern' top' (pl k) /\ top' = n - zlen (pl k) /\
    FlagSt k (k :: pl k) Flag').
Proof.
  intros Hk C HR HP HgP HgQ HPa LY RY LP HFl. unfold num_scatter.
  wb. rewrite (HgP k Hk). wok. pose proof (pf_range _ _ _ HP k Hk) as HPk.
  wb. eapply wp_rd; [apply (csc_jc _ _ _ _ _ C); lia|].
  wb. eapply wp_rd; [apply (csc_jc _ _ _ _ _ C); lia|].
  pose proof (fo_topo _ _ _ HF k Hk) as HT.
  eapply (wp_col _ _ _ _ _ (Pf k) (fun done st' =>
    let acc := patlist n par (map (fun e => Qf (fst e)) done) k in
    let '(Y', Pattern', Flag', top') := st' in
    zlen Y' = n /\
    (forall r, 0 <= r <= k -> rd Y' r =
       Ok (fold_left (fun acc e => if fst e =? r then fadd A acc (snd e) else acc)
             (map (fun e => (Qf (fst e), snd e)) done) zero)) /\
    zlen Pattern' = n /\ holds Pattern' top' acc /\ top' = n - zlen acc /\
    topo par k acc /\
    FlagSt k (k :: acc) Flag')); eauto.
  - cbv zeta. unfold patlist. simpl. split; [auto|]. split; [auto|]. split; [auto|].
    split; [apply holds_nil|]. split; [rewrite zlen_nil; lia|]. split; [apply topo_nil|exact HFl].
  - intros done r v rest [[[Y1 Pat1] Fl1] top1] E R1 R2 [LY1 [RY1 [LP1 [H1 [Et [HT1 HF1]]]]]].
    wb. eapply wp_rd; [exact R1|].
    assert (Hr : 0 <= r < n) by (eapply HR; [exact HPk|rewrite E; apply in_elt]).
    wb. rewrite (HgQ r Hr). wok. pose proof (qf_range _ _ _ HP r Hr) as HQ.
    set (acc := patlist n par (map (fun e => Qf (fst e)) done) k) in *.
    assert (Eacc : patlist n par (map (fun e => Qf (fst e)) (done ++ [(r, v)])) k = pstep n par k acc (Qf r)).
    { unfold patlist. rewrite map_app, fold_left_app. reflexivity. }
    cbv zeta. rewrite Eacc.
    (* the pattern of the whole row contains this one *)
    assert (Hsub : forall x, In x (pstep n par k acc (Qf r)) -> In x (pl k)).
    { intros x Hx. unfold brows. rewrite E. unfold patlist. rewrite map_app, fold_left_app. simpl.
      apply fold_pstep_incl. exact Hx. }
    destruct (Z.leb_spec (Qf r) k) as [Hle|Hgt].
    + wb. eapply wp_rd; [apply RY1; lia|]. wb. eapply wp_rd; [exact R2|].
      wb. apply wp_wr; [lia|]. intros Y2 LY2 RY2.
      set (vis := path (S (S (Z.to_nat n))) par (k :: acc) (Qf r)) in *.
      assert (Eps : pstep n par k acc (Qf r) = vis ++ acc).
      { unfold pstep. destruct (Z.ltb_spec (Qf r) k) as [|Hge]; auto.
        assert (Qf r = k) by lia. unfold vis. cbn [path].
        replace (inb (Qf r) (k :: acc)) with true by (symmetry; apply inb_true; simpl; auto).
        reflexivity. }
      rewrite Eps in Hsub. rewrite Eps.
      assert (HV : forall x, In x vis -> 0 <= x < k /\ x < par x <= k).
      { intros x Hx. assert (Hin : In x (pl k)) by (apply Hsub, in_or_app; auto).
        pose proof (topo_par_le _ _ _ _ HT Hin). destruct HT as [_ [HB _]]. destruct (HB _ Hin). lia. }
      assert (HT2 : topo par k (vis ++ acc)).
      { apply path_topo; auto; try lia. intros x _ Hx. apply HV. exact Hx. }
      wb. eapply wp_mono.
      { change 0 with (zlen (@nil Z)).
        apply (num_walk_ok Parent k acc Hk HPa (S (Z.to_nat n)) [] (Qf r) Pat1 Fl1); auto; simpl; try lia.
        - apply holds_nil.
        - rewrite <- Et. exact H1.
        - apply HT1.
        - intros x Hx. apply HT1. exact Hx. }
      intros [[Pat2 Fl2] len2] [HF2 [LP2 [-> [H2 H3]]]].
      change ([] ++ path (S (S (Z.to_nat n))) par ([] ++ k :: acc) (Qf r)) with vis in *.
      pose proof (NoDup_bounded_length (vis ++ acc) 0 k (proj1 HT2) (fun x Hx => proj1 (proj1 (proj2 HT2) x Hx))) as Hlen.
      rewrite zlen_app in Hlen.
      wb. eapply wp_mono.
      { rewrite Et. apply push_path_ok; auto. lia. }
      intros Pat3 [LP3 H4]. wok. rewrite zlen_app in *.
      replace (top1 - zlen vis) with (n - (zlen vis + zlen acc)) by lia.
      split; [lia|]. split; [|split; [auto|split; [auto|split; [auto|split; [auto|]]]]].
      * intros x Hx. rewrite map_app, fold_left_app. simpl. rewrite RY2.
        rewrite Z.eqb_sym. destruct (Z.eqb_spec (Qf r) x); [subst; auto|]. apply RY1; auto.
      * eapply FlagSt_ext; [exact HF2|]. intros x. rewrite in_app_iff. simpl. rewrite in_app_iff. tauto.
    + wok. unfold pstep. destruct (Z.ltb_spec (Qf r) k); [lia|].
      split; [lia|]. split; [|split; [auto|split; [auto|split; [auto|split; [auto|auto]]]]].
      intros x Hx. rewrite map_app, fold_left_app. simpl.
      destruct (Z.eqb_spec (Qf r) x); [lia|]. apply RY1; auto.
  - intros [[[Y1 Pat1] Fl1] top1] [LY1 [RY1 [LP1 [H1 [Et [HT1 HF1]]]]]].
    split; [auto|]. split; [exact RY1|]. split; [auto|]. split; [exact H1|]. split; [exact Et|exact HF1].
Qed.

(** ** Elimination *)

Variables (y Lv : Z -> Z -> F) (Dv : Z -> F).
Hypothesis HN : NumSpec y Lv Dv.

Definition Lcell (k i : Z) : list F := map (fun r => Lv r i) (lrows k i).

Definition ElimSt (k : Z) (l1 : list Z) (st : arr Z * arr Z * arr F * arr F * arr F) : Prop :=
  let '(Lnz, Li, Lx, D, Y) := st in
  zlen Lnz = n /\ Lpf n <= zlen Li /\ Lpf n <= zlen Lx /\ zlen D = n /\ zlen Y = n /\
  (forall i, 0 <= i <= k -> rd Lnz i = Ok (lcnt n par rows k i + if inb i l1 then 1 else 0)) /\
  (forall i, 0 <= i < n -> holds Li (Lpf i) (lrows k i ++ if inb i l1 then [k] else [])) /\
  (forall i, 0 <= i < n -> holds Lx (Lpf i) (Lcell k i ++ if inb i l1 then [Lv k i] else [])) /\
  (forall i, 0 <= i < k -> rd D i = Ok (Dv i)) /\
  rd D k = Ok (dfold (Lv k) (y k) k l1) /\
  (forall r, 0 <= r < k -> rd Y r = Ok (if inb r l1 then zero else yfold Lv (y k) k l1 r)) /\
  rd Y k = Ok zero.
Arguments ElimSt : simpl never.

Lemma inb_snoc x l i : inb x (l ++ [i]) = inb x l || (x =? i).
Proof.
  destruct (inb x (l ++ [i])) eqn:E.
  - apply inb_true in E. apply in_app_or in E. simpl in E. symmetry. apply orb_true_iff.
    rewrite inb_true. destruct E as [E|[E|[]]]; [auto|right; apply Z.eqb_eq; auto].
  - apply inb_false in E. rewrite in_app_iff in E. simpl in E. symmetry. apply orb_false_iff.
    rewrite inb_false. split; [tauto|]. apply Z.eqb_neq. intuition congruence.
Qed.

Lemma holds_app_l {T} (a : arr T) lo l1 l2 : holds a lo (l1 ++ l2) -> holds a lo l1.
Proof. intros H t x Hx. apply H. rewrite nth_error_app1; auto. apply nth_error_Some. congruence. Qed.

Lemma zlen_Lcell k i : zlen (Lcell k i) = lcnt n par rows k i.
Proof. unfold Lcell. rewrite zlen_map. apply zlen_lrows. Qed.

Lemma num_elim_ok Lp Pattern k t l1 i l2 st :
  0 <= k < n -> vec Lp (n + 1) Lpf -> pl k = l1 ++ i :: l2 -> rd Pattern t = Ok i ->
  ElimSt k l1 st -> wp (num_elim A Lp Pattern k t st) (ElimSt k (l1 ++ [i])).
Proof.
  intros Hk HLp E Ei HS. destruct st as [[[[Lnz Li] Lx] D] Y].
  destruct HS as [LLn [LLi [LLx [LD [LY [RLn [RLi [RLx [RD [RDk [RY RYk]]]]]]]]]]].
  pose proof (HN k Hk) as [SY SL SD].
  pose proof (fo_topo _ _ _ HF k Hk) as HT. pose proof HT as [ND [HB HC]].
  assert (Hin : In i (pl k)) by (rewrite E; apply in_elt).
  pose proof (pl_in k i Hk Hin) as Hi.
  assert (Hni : ~ In i l1).
  { rewrite E in ND. apply NoDup_remove_2 in ND. intros H. apply ND, in_or_app. auto. }
  pose proof Hni as Hni'. apply inb_false in Hni'.
  unfold num_elim. wb. eapply wp_rd; [exact Ei|].
  wb. eapply wp_rd; [rewrite RY by lia; rewrite Hni'; rewrite <- (SY _ _ _ E); reflexivity|].
  wb. apply wp_wr; [lia|]. intros Y1 LY1 RY1.
  wb. eapply wp_rd; [apply HLp; lia|].
  wb. eapply wp_rd; [rewrite RLn by lia; rewrite Hni', Z.add_0_r; reflexivity|].
  pose proof (lcnt_nonneg k i) as Hcnt.
  (* inner loop: one pass down the stored part of column i *)
  wb. eapply (wp_list Li (Lpf i) _ (lrows k i) (fun done Y' => zlen Y' = n /\
     (forall r, 0 <= r < k -> rd Y' r =
        if inb r done then Ok (fsub A (yfold Lv (y k) k l1 r) (fmul A (Lv r i) (y k i))) else rd Y1 r) /\
     rd Y' k = rd Y1 k)).
  { specialize (RLi i ltac:(lia)). rewrite Hni', app_nil_r in RLi. exact RLi. }
  { rewrite zlen_lrows. reflexivity. }
  { split; [lia|]. split; auto. }
  { intros done r rest Y' El Er [L' [R1 R2]].
    wb. eapply wp_rd; [exact Er|].
    assert (Hr : In r (lrows k i)) by (rewrite El; apply in_elt).
    apply in_lrows in Hr. destruct Hr as [Hr Hir].
    pose proof (pl_in r i ltac:(lia) Hir) as Hir'.
    assert (Hrd : ~ In r done).
    { pose proof (NoDup_lrows k i) as NDl. rewrite El in NDl. apply NoDup_remove_2 in NDl.
      intros H. apply NDl, in_or_app. auto. }
    assert (Hr1 : ~ In r l1).
    { assert (Hr2 : In r l2) by (eapply (topo_between par k (pl k) r (pl r)); eauto; [apply (fo_topo _ _ _ HF); lia|lia]).
      rewrite E in ND. intros H.
      apply in_split in H. destruct H as [a1 [a2 Ea]]. rewrite Ea in ND. rewrite <- app_assoc in ND. simpl in ND.
      apply NoDup_remove_2 in ND. apply ND. apply in_or_app. right. apply in_or_app. right. right. exact Hr2. }
    apply inb_false in Hrd. apply inb_false in Hr1.
    wb. eapply wp_rd.
    { rewrite R1 by lia. rewrite Hrd, RY1. destruct (Z.eqb_spec r i); [lia|]. rewrite RY by lia. rewrite Hr1. reflexivity. }
    wb. eapply wp_rd.
    { specialize (RLx i ltac:(lia)). rewrite Hni', app_nil_r in RLx. unfold Lcell in RLx. rewrite El, map_app in RLx.
      simpl in RLx. apply holds_rd in RLx. rewrite zlen_map in RLx. exact RLx. }
    apply wp_wr; [lia|]. intros Y2 L2 R3. split; [lia|]. split.
    - intros r' Hr'. rewrite R3, inb_snoc. destruct (Z.eqb_spec r' r).
      + subst. rewrite orb_true_r. reflexivity.
      + rewrite orb_false_r. apply R1. auto.
    - rewrite R3. destruct (Z.eqb_spec k r); [lia|]. auto. }
  intros Y2 [L2 [R1 R2]]. rewrite Z.max_r by lia.
  wb. eapply wp_rd; [apply RD; lia|].
  wb. rewrite (SL i Hin). wok.
  wb. eapply wp_rd; [exact RDk|].
  wb. apply wp_wr; [lia|]. intros D1 LD1 RD1.
  destruct (slot_bound k i Hk Hin) as [Hs1 Hs2]. pose proof (Lpf_nonneg i) as Hp0.
  wb. apply wp_wr; [lia|]. intros Li1 LLi1 RLi1.
  wb. apply wp_wr; [lia|]. intros Lx1 LLx1 RLx1.
  wb. apply wp_wr; [lia|]. intros Ln1 LLn1 RLn1. wok.
  (* no other column touches the slot of row k in column i *)
  assert (Hdis : forall i', 0 <= i' < n -> i' <> i ->
     lcnt n par rows k i' + (if inb i' l1 then 1 else 0) <= lnzf i' /\
     ~ (Lpf i' <= Lpf i + lcnt n par rows k i < Lpf i' + lnzf i')).
  { intros i' Hi' Hne. split.
    - unfold lnzf. destruct (inb i' l1) eqn:Ei'.
      + apply inb_true in Ei'. pose proof (lcnt_mono (k + 1) n i' ltac:(lia)) as Hm. rewrite lcnt_succ in Hm by lia.
        replace (inb i' (pl k)) with true in Hm; auto. symmetry. apply inb_true. rewrite E. apply in_or_app. auto.
      + pose proof (lcnt_mono k n i' ltac:(lia)). lia.
    - rewrite <- Lpf_succ by lia. intros [H1 H2]. destruct (Z.lt_ge_cases i' i).
      + pose proof (Lpf_mono (i' + 1) i ltac:(lia)). lia.
      + pose proof (Lpf_mono (i + 1) i' ltac:(lia)). lia. }
  unfold ElimSt.
  split; [lia|]. split; [lia|]. split; [lia|]. split; [lia|]. split; [lia|].
  split; [|split; [|split; [|split; [|split; [|split]]]]].
  - intros x Hx. rewrite RLn1, inb_snoc. destruct (Z.eqb_spec x i).
    + subst. rewrite orb_true_r. reflexivity.
    + rewrite orb_false_r. apply RLn. auto.
  - intros x Hx. rewrite inb_snoc. destruct (Z.eqb_spec x i).
    + subst x. rewrite orb_true_r. specialize (RLi i Hx). rewrite Hni', app_nil_r in RLi.
      apply holds_snoc.
      * eapply holds_cells; [exact RLi|]. rewrite zlen_lrows. intros j Hj. rewrite RLi1.
        destruct (Z.eqb_spec j (Lpf i + lcnt n par rows k i)); [lia|auto].
      * rewrite zlen_lrows, RLi1, Z.eqb_refl. reflexivity.
    + rewrite orb_false_r. eapply holds_cells; [apply RLi; auto|]. intros j Hj. rewrite RLi1.
      destruct (Hdis x Hx ltac:(auto)) as [G1 G2].
      rewrite zlen_app, zlen_lrows in Hj.
      destruct (Z.eqb_spec j (Lpf i + lcnt n par rows k i)); auto. exfalso. apply G2. split; [lia|].
      destruct (inb x l1); rewrite ?zlen_cons, zlen_nil in Hj; lia.
  - intros x Hx. rewrite inb_snoc. destruct (Z.eqb_spec x i).
    + subst x. rewrite orb_true_r. specialize (RLx i Hx). rewrite Hni', app_nil_r in RLx.
      apply holds_snoc.
      * eapply holds_cells; [exact RLx|]. rewrite zlen_Lcell. intros j Hj. rewrite RLx1.
        destruct (Z.eqb_spec j (Lpf i + lcnt n par rows k i)); [lia|auto].
      * rewrite zlen_Lcell, RLx1, Z.eqb_refl. reflexivity.
    + rewrite orb_false_r. eapply holds_cells; [apply RLx; auto|]. intros j Hj. rewrite RLx1.
      destruct (Hdis x Hx ltac:(auto)) as [G1 G2].
      rewrite zlen_app, zlen_Lcell in Hj.
      destruct (Z.eqb_spec j (Lpf i + lcnt n par rows k i)); auto. exfalso. apply G2. split; [lia|].
      destruct (inb x l1); rewrite ?zlen_cons, zlen_nil in Hj; lia.
  - intros x Hx. rewrite RD1. destruct (Z.eqb_spec x k); [lia|]. apply RD; auto.
  - rewrite RD1, Z.eqb_refl. unfold dfold. rewrite fold_left_app. reflexivity.
  - intros r Hr. rewrite R1 by auto. rewrite inb_snoc.
    destruct (inb r (lrows k i)) eqn:Er.
    + apply inb_true in Er. apply in_lrows in Er. destruct Er as [Hr' Hir].
      pose proof (pl_in r i ltac:(lia) Hir) as Hir'.
      assert (Hr1 : ~ In r l1).
      { assert (Hr2 : In r l2) by (eapply (topo_between par k (pl k) r (pl r)); eauto; [apply (fo_topo _ _ _ HF); lia|lia]).
        intros H. rewrite E in ND.
        apply in_split in H. destruct H as [a1 [a2 Ea]]. rewrite Ea in ND. rewrite <- app_assoc in ND. simpl in ND.
        apply NoDup_remove_2 in ND. apply ND. apply in_or_app. right. apply in_or_app. right. right. exact Hr2. }
      apply inb_false in Hr1. rewrite Hr1. destruct (Z.eqb_spec r i); [lia|]. simpl.
      unfold yfold. rewrite fold_left_app. simpl. apply inb_true in Hir. rewrite Hir. reflexivity.
    + rewrite RY1. destruct (Z.eqb_spec r i).
      * rewrite orb_true_r. reflexivity.
      * rewrite RY by lia. rewrite orb_false_r. destruct (inb r l1); auto. f_equal.
        unfold yfold. rewrite fold_left_app. simpl.
        assert (Hnr : ~ In i (pl r)).
        { intros H. apply inb_false in Er. apply Er. apply in_lrows. auto. }
        apply inb_false in Hnr. rewrite Hnr. reflexivity.
  - rewrite R2, RY1. destruct (Z.eqb_spec k i); [lia|]. auto.
Qed.

(** ** Rows and the whole factorisation *)

Definition NumSt (k : Z) (w : numst A) : Prop :=
  zlen (nLnz A w) = n /\ Lpf n <= zlen (nLi A w) /\ Lpf n <= zlen (nLx A w) /\
  zlen (nD A w) = n /\ zlen (nY A w) = n /\ zlen (nPattern A w) = n /\ zlen (nFlag A w) = n /\
  (forall i, 0 <= i < k -> rd (nLnz A w) i = Ok (lcnt n par rows k i)) /\
  (forall i, 0 <= i < n -> holds (nLi A w) (Lpf i) (lrows k i)) /\
  (forall i, 0 <= i < n -> holds (nLx A w) (Lpf i) (Lcell k i)) /\
  (forall i, 0 <= i < k -> rd (nD A w) i = Ok (Dv i)) /\
  (forall i, 0 <= i < k -> rd (nY A w) i = Ok zero) /\
  (forall i, 0 <= i < k -> exists f, rd (nFlag A w) i = Ok f /\ f < k).

Lemma num_row_ok Ap Ai Ax Lp Parent P Pinv k w :
  0 <= k < n -> Csc Ap Ai Ax n col -> rows_in n n col -> isperm n Pf Qf ->
  pget n P Pf -> pget n Pinv Qf -> vec Parent n par -> vec Lp (n + 1) Lpf ->
  NumSt k w -> wp (num_row A n Ap Ai Ax Lp Parent P Pinv k w) (NumSt (k + 1)).
Proof.
  intros Hk C HR HP HgP HgQ HPa HLp [L1 [L2 [L3 [L4 [L5 [L6 [L7 [R1 [R2 [R3 [R4 [R5 R6]]]]]]]]]]]].
  unfold num_row. wb. apply wp_wr; [lia|]. intros Y1 LY1 RY1.
  wb. apply wp_wr; [lia|]. intros Fl1 LF1 RF1.
  wb. apply wp_wr; [lia|]. intros Ln1 LL1 RL1.
  wb. eapply wp_mono.
  { apply (num_scatter_ok Ap Ai Ax Parent P Pinv k Y1 (nPattern A w) Fl1); auto; try lia.
    - intros r Hr. rewrite RY1. destruct (Z.eqb_spec r k); auto. apply R5; lia.
    - split; [lia|]. intros i Hi. rewrite RF1. destruct (Z.eqb_spec i k).
      + subst. exists k. split; auto. split; [lia|]. simpl. tauto.
      + destruct (R6 i ltac:(lia)) as [f [G1 G2]]. exists f. split; auto. split; [lia|]. simpl. split; intros; lia. }
  intros [[[Y2 Pat2] Fl2] top2] [LY2 [RY2 [LP2 [H2 [Et HF2]]]]].
  wb. eapply wp_rd; [apply RY2; lia|].
  wb. apply wp_wr; [lia|]. intros D1 LD1 RD1.
  wb. apply wp_wr; [lia|]. intros Y3 LY3 RY3.
  assert (Z0 : lcnt n par rows k k = 0).
  { rewrite <- zlen_lrows, lrows_out by lia. reflexivity. }
  wb. eapply (wp_list Pat2 top2 _ (pl k) (ElimSt k)).
  { exact H2. }
  { lia. }
  { unfold ElimSt. simpl.
    split; [lia|]. split; [lia|]. split; [lia|]. split; [lia|]. split; [lia|].
    split; [|split; [|split; [|split; [|split; [|split]]]]].
    - intros i Hi. rewrite RL1. destruct (Z.eqb_spec i k); [subst; rewrite Z0; reflexivity|].
      rewrite R1 by lia. f_equal. lia.
    - intros i Hi. rewrite app_nil_r. auto.
    - intros i Hi. rewrite app_nil_r. auto.
    - intros i Hi. rewrite RD1. destruct (Z.eqb_spec i k); [lia|]. auto.
    - rewrite RD1, Z.eqb_refl. reflexivity.
    - intros r Hr. rewrite RY3. destruct (Z.eqb_spec r k); [lia|]. rewrite RY2 by lia. reflexivity.
    - rewrite RY3, Z.eqb_refl. reflexivity. }
  { intros done i rest st E Er HS. eapply num_elim_ok; eauto. }
  intros [[[[Ln4 Li4] Lx4] D4] Y4] [M1 [M2 [M3 [M4 [M5 [Q1 [Q2 [Q3 [Q4 [Q5 [Q6 Q7]]]]]]]]]]].
  wb. eapply wp_rd; [exact Q5|].
  wb. apply wp_wr; [lia|]. intros D5 LD5 RD5. wok.
  unfold NumSt. simpl.
  split; [lia|]. split; [lia|]. split; [lia|]. split; [lia|]. split; [lia|]. split; [lia|].
  split; [apply HF2|].
  split; [|split; [|split; [|split; [|split]]]].
  - intros i Hi. rewrite Q1 by lia. rewrite lcnt_succ by lia. reflexivity.
  - intros i Hi. rewrite lrows_succ by lia. auto.
  - intros i Hi. unfold Lcell. rewrite lrows_succ, map_app by lia. specialize (Q3 i Hi).
    destruct (inb i (pl k)); exact Q3.
  - intros i Hi. rewrite RD5. destruct (Z.eqb_spec i k).
    + subst. rewrite <- (rs_D _ _ _ _ (HN k Hk)). reflexivity.
    + apply Q4. lia.
  - intros i Hi. destruct (Z.eq_dec i k); [subst; auto|]. rewrite Q6 by lia.
    destruct (inb i (pl k)) eqn:Ei; auto. f_equal.
    (* a row outside the pattern keeps the scattered value, which is zero *)
    apply inb_false in Ei. unfold yfold.
    assert (E0 : forall l acc, (forall j, In j l -> In j (pl k)) ->
       fold_left (fun acc j => if inb j (pl i) then fsub A acc (fmul A (Lv i j) (y k j)) else acc) l acc = acc).
    { induction l as [|j l IH]; intros acc Hl; simpl; auto.
      destruct (inb j (pl i)) eqn:Ej.
      - exfalso. apply inb_true in Ej. apply Ei.
        assert (Hjk : In j (pl k)) by (apply Hl; simpl; auto).
        apply in_split in Hjk. destruct Hjk as [a1 [a2 Ea]].
        assert (In i a2).
        { apply (topo_between par k (pl k) i (pl i) a1 j a2); auto.
          - apply (fo_topo _ _ _ HF k Hk).
          - apply (fo_topo _ _ _ HF i). lia.
          - lia. }
        rewrite Ea. apply in_or_app. simpl. auto.
      - apply IH. intros; apply Hl; simpl; auto. }
    rewrite E0 by auto. unfold y0.
    assert (E1 : forall l : list (Z * F), (forall e, In e l -> fst e <> i) ->
       fold_left (fun acc e => if fst e =? i then fadd A acc (snd e) else acc) l zero = zero).
    { induction l as [|e l IH]; intros Hl; simpl; auto.
      destruct (Z.eqb_spec (fst e) i); [exfalso; eapply Hl; simpl; eauto|]. apply IH. intros; apply Hl; simpl; auto. }
    apply E1. intros e He Hfe. apply Ei. apply patlist_covers; auto.
    + intros x Hx. unfold brows in Hx. apply in_map_iff in Hx. destruct Hx as [[r v] [<- Hx]].
      apply (qf_range _ _ _ HP). simpl. eapply HR; [|exact Hx]. apply (pf_range _ _ _ HP). auto.
    + apply (fo_topo _ _ _ HF k Hk).
    + unfold bcol in He. apply in_map_iff in He. destruct He as [e' [Ee He]]. subst e. simpl in Hfe.
      unfold brows. apply in_map_iff. exists e'. auto.
    + lia.
  - intros i Hi. destruct HF2 as [_ HF2]. destruct (HF2 i ltac:(lia)) as [f [G1 [G2 _]]]. exists f. split; auto. lia.
Qed.

Lemma LDL_numeric_ok Ap Ai Ax Lp Parent P Pinv w :
  0 <= n -> Csc Ap Ai Ax n col -> rows_in n n col -> isperm n Pf Qf ->
  pget n P Pf -> pget n Pinv Qf -> vec Parent n par -> vec Lp (n + 1) Lpf ->
  zlen (nLnz A w) = n -> Lpf n <= zlen (nLi A w) -> Lpf n <= zlen (nLx A w) ->
  zlen (nD A w) = n -> zlen (nY A w) = n -> zlen (nPattern A w) = n -> zlen (nFlag A w) = n ->
  wp (LDL_numeric A n Ap Ai Ax Lp Parent w P Pinv) (fun r => fst r = n /\ NumSt n (snd r)).
Proof.
  intros Hn C HR HP HgP HgQ HPa HLp L1 L2 L3 L4 L5 L6 L7. unfold LDL_numeric. wb.
  apply (wp_for_le NumSt); auto.
  - unfold NumSt. repeat (split; [assumption|]).
    split; [intros; lia|]. split; [intros; apply holds_nil|]. split; [intros; apply holds_nil|].
    repeat split; intros; lia.
  - intros k w' Hk HS. apply num_row_ok; auto.
  - intros w' HS. wok. auto.
Qed.

(** The factor as stored columns. *)
Definition lcol (i : Z) : list (Z * F) := map (fun r => (r, Lv r i)) (lrows n i).

Lemma lcol_start j : start lcol j = Lpf j.
Proof.
  unfold start, Lpf. apply sumz_ext. intros i _. unfold lcol. rewrite zlen_map, zlen_lrows. reflexivity.
Qed.

Lemma NumSt_Csc w Lp : 0 <= n -> vec Lp (n + 1) Lpf -> NumSt n w -> Csc Lp (nLi A w) (nLx A w) n lcol.
Proof.
  intros Hn HLp [_ [_ [_ [_ [_ [_ [_ [_ [R2 [R3 _]]]]]]]]]]. split.
  - intros j Hj. rewrite lcol_start. apply HLp. lia.
  - intros j t r v Hj Ht. rewrite lcol_start. apply R2; auto.
    unfold lcol in Ht. rewrite nth_error_map in Ht. destruct (nth_error (lrows n j) t) eqn:E; [|discriminate].
    simpl in Ht. inversion Ht; subst. reflexivity.
  - intros j t r v Hj Ht. rewrite lcol_start. apply R3; auto.
    unfold lcol in Ht. unfold Lcell. rewrite nth_error_map in *. destruct (nth_error (lrows n j) t) eqn:E; [|discriminate].
    simpl in Ht. inversion Ht; subst. reflexivity.
Qed.

Lemma lcol_rows : rows_in n n lcol.
Proof.
  intros j r v Hj Hin. unfold lcol in Hin. apply in_map_iff in Hin. destruct Hin as [r' [E Hin]].
  inversion E; subst. apply in_lrows in Hin. lia.
Qed.

Lemma lcol_lower j r v : 0 <= j < n -> In (r, v) (lcol j) -> j < r < n /\ v = Lv r j.
Proof.
  intros Hj Hin. unfold lcol in Hin. apply in_map_iff in Hin. destruct Hin as [r' [E Hin]].
  inversion E; subst. apply in_lrows in Hin. destruct Hin as [Hr Hin]. apply pl_in in Hin; auto. split; auto. lia.
Qed.

End Num.
