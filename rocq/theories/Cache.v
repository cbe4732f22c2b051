(** Partial refactorisation (LDL_row_cache_numeric): array-level facts, for every arithmetic. *)
From Coq Require Import ZArith List Lia Bool.
From Verif Require Import Res Arith Lists MSparse Csc SemVec MLdl LdlSpec LdlSym LdlNum MInactive.
Import ListNotations.
Open Scope Z_scope.
Open Scope res_scope.

Lemma filter_split_lt p b : forall k a l1 i l2, Z.to_nat (b - a) = k -> filter p (zr a b) = l1 ++ i :: l2 ->
  (forall j, In j l1 -> j < i) /\ (forall j, In j l2 -> i < j).
Proof.
  induction k; intros a l1 i l2 Hk E.
  - rewrite zr_nil in E by lia. destruct l1; discriminate E.
  - rewrite zr_cons in E by lia. cbn [filter] in E. destruct (p a).
    + destruct l1 as [|x l1]; cbn [app] in E; injection E as Ea E.
      * subst i. split; [intros j []|]. intros j Hj. rewrite <- E in Hj. apply filter_In in Hj.
        destruct Hj as [Hj _]. apply in_zr in Hj. lia.
      * subst x. destruct (IHk (a + 1) l1 i l2 ltac:(lia) E) as [H1 H2]. split; auto.
        intros j [<-|Hj]; auto.
        assert (Hi : In i (filter p (zr (a + 1) b))) by (rewrite E; apply in_elt).
        apply filter_In in Hi. destruct Hi as [Hi _]. apply in_zr in Hi. lia.
    + apply (IHk (a + 1)); auto. lia.
Qed.

(** Flags that are closed under the parent pointers spread from a node to the row it occurs in. *)
Lemma topo_closed par k l i (fl : Z -> bool) :
  topo par k l -> (forall x, In x l -> fl x = true -> fl (par x) = true) -> In i l -> fl i = true -> fl k = true.
Proof.
  intros HT Hc Hi Hf.
  assert (Hk : 0 <= i < k) by (apply HT; auto).
  remember (Z.to_nat (k - i)) as d eqn:Ed. revert i Hi Hf Hk Ed.
  induction d as [d IH] using lt_wf_ind. intros i Hi Hf Hk Ed.
  pose proof (Hc i Hi Hf) as Hp. destruct (topo_par _ _ _ _ HT Hi) as [E|Hin].
  - rewrite E in Hp. exact Hp.
  - assert (0 <= par i < k) by (apply HT; auto). assert (i < par i) by (apply HT; auto).
    apply (IH (Z.to_nat (k - par i))) with (i := par i); auto; lia.
Qed.

Section Cache.
Variable A : Arith.
Notation F := (car A).
Notation zero := (f0 A).
Variables (n : Z) (col : cols F) (Pf Qf par : Z -> Z).
Notation rows := (brows Pf Qf col).
Notation pl := (fun k => patlist n par (rows k) k).
Hypothesis HF : forest n par rows.

(** The columns of row [k] of the factor, in ascending order. *)
Definition sl (k : Z) : list Z := filter (fun i => inb i (pl k)) (zr 0 n).

Lemma in_sl k i : 0 <= k < n -> In i (sl k) <-> In i (pl k).
Proof.
  intros Hk. unfold sl. rewrite filter_In, in_zr, inb_true. split; [tauto|]. intros H. split; auto.
  apply (pl_in A n col Pf Qf par HF) in H; auto. lia.
Qed.

Lemma NoDup_sl k : NoDup (sl k).
Proof. apply NoDup_filter, NoDup_zr. Qed.

Lemma sl_split k l1 i l2 : sl k = l1 ++ i :: l2 -> (forall j, In j l1 -> j < i) /\ (forall j, In j l2 -> i < j).
Proof. apply (filter_split_lt _ n _ 0 l1 i l2 eq_refl). Qed.

(** What the partial refactorisation computes for a flagged row. *)
Record CRow (k : Z) (y Lv : Z -> Z -> F) (Dv : Z -> F) : Prop := mkCRow {
  cs_y : forall l1 i l2, sl k = l1 ++ i :: l2 -> y k i = yfold A n col Pf Qf par Lv (y k) k l1 i;
  cs_L : forall i, In i (sl k) -> fdiv A (y k i) (Dv i) = Ok (Lv k i);
  cs_D : Dv k = regularize A (dfold A col Pf Qf (Lv k) (y k) k (sl k))
}.

Lemma CRow_ext k y y' Lv Lv' Dv Dv' :
  0 <= k < n ->
  (forall r i, 0 <= r <= k -> y r i = y' r i) -> (forall r i, 0 <= r <= k -> Lv r i = Lv' r i) ->
  (forall i, 0 <= i <= k -> Dv i = Dv' i) ->
  CRow k y Lv Dv -> CRow k y' Lv' Dv'.
Proof.
  intros Hk Ey EL ED [H1 H2 H3].
  assert (Hlt : forall i, In i (sl k) -> 0 <= i < k).
  { intros i Hi. apply in_sl in Hi; auto. eapply (pl_in A n col Pf Qf par HF); eauto. }
  split.
  - intros l1 i l2 E. rewrite <- Ey by lia. rewrite (H1 _ _ _ E).
    assert (0 <= i < k) by (apply Hlt; rewrite E; apply in_elt).
    apply yfold_ext; intros; [apply EL; lia|apply Ey; lia].
  - intros i Hi. pose proof (Hlt i Hi). rewrite <- Ey, <- ED, <- EL by lia. auto.
  - rewrite <- ED by lia. rewrite H3. f_equal. apply dfold_ext; intros; [apply EL|apply Ey]; lia.
Qed.

Variable fl : Z -> bool.

(** Such values exist, whatever the unflagged rows hold, as long as one can divide by their pivots. *)
Lemma cache_exists Lo Do : div_ok A ->
  (forall i, 0 <= i < n -> fl i = false -> forall x, exists q, fdiv A x (Do i) = Ok q) -> 0 <= n ->
  exists y Lv Dv, (forall k, 0 <= k < n -> fl k = true -> CRow k y Lv Dv) /\
    (forall k, 0 <= k < n -> fl k = false -> Dv k = Do k /\ forall i, Lv k i = Lo k i).
Proof.
  intros Hdiv Hold Hn.
  assert (G : forall m, 0 <= m -> m <= n -> exists y Lv Dv,
    (forall k, 0 <= k < m -> fl k = true -> CRow k y Lv Dv) /\
    (forall k, 0 <= k < n -> fl k = false -> Dv k = Do k /\ forall i, Lv k i = Lo k i)).
  { apply (zr_ind (fun m => m <= n -> exists y Lv Dv,
      (forall k, 0 <= k < m -> fl k = true -> CRow k y Lv Dv) /\
      (forall k, 0 <= k < n -> fl k = false -> Dv k = Do k /\ forall i, Lv k i = Lo k i))).
    - intros _. exists (fun _ _ => zero), Lo, Do. split; [intros; lia|auto].
    - intros m Hm IH Hmn. destruct (IH ltac:(lia)) as [y [Lv [Dv [H Ho]]]].
      destruct (fl m) eqn:Fm.
      2:{ exists y, Lv, Dv. split; auto. intros k Hk Fk. destruct (Z.eq_dec k m); [congruence|]. apply H; auto; lia. }
      destruct (row_y_exists A n col Pf Qf par Lv m (sl m) (NoDup_sl m)) as [ym Hym].
      set (Lm := fun i => match fdiv A (ym i) (Dv i) with Ok q => q | _ => zero end).
      set (dm := regularize A (dfold A col Pf Qf Lm ym m (sl m))).
      set (y' := fun r i => if r =? m then ym i else y r i).
      set (Lv' := fun r i => if r =? m then Lm i else Lv r i).
      set (Dv' := fun i => if i =? m then dm else Dv i).
      exists y', Lv', Dv'. split.
      2:{ intros k Hk Fk. unfold Dv', Lv'. destruct (Z.eqb_spec k m); [congruence|]. auto. }
      intros k Hk Fk.
      destruct (Z.eq_dec k m) as [->|].
      + assert (Hlt : forall i, In i (sl m) -> 0 <= i < m).
        { intros i Hi. apply in_sl in Hi; [|lia]. eapply (pl_in A n col Pf Qf par HF); eauto. lia. }
        split.
        * intros l1 i l2 E. unfold y' at 1. rewrite Z.eqb_refl. rewrite (Hym _ _ _ E).
          assert (0 <= i < m) by (apply Hlt; rewrite E; apply in_elt).
          apply yfold_ext; intros.
          -- unfold Lv'. destruct (Z.eqb_spec i m); [lia|auto].
          -- unfold y'. rewrite Z.eqb_refl. auto.
        * intros i Hi. pose proof (Hlt i Hi). unfold y', Dv', Lv'. rewrite Z.eqb_refl.
          destruct (Z.eqb_spec i m); [lia|]. unfold Lm.
          assert (Hq : exists q, fdiv A (ym i) (Dv i) = Ok q).
          { destruct (fl i) eqn:Fi.
            - rewrite (cs_D _ _ _ _ (H i ltac:(lia) Fi)). apply Hdiv.
            - rewrite (proj1 (Ho i ltac:(lia) Fi)). apply Hold; auto. lia. }
          destruct Hq as [q Eq]. rewrite Eq. reflexivity.
        * unfold Dv' at 1. rewrite Z.eqb_refl. unfold dm. f_equal. apply dfold_ext; intros.
          -- unfold Lv'. rewrite Z.eqb_refl. auto.
          -- unfold y'. rewrite Z.eqb_refl. auto.
      + eapply CRow_ext; [| | | |apply (H k); auto; lia]; try lia; intros.
        * unfold y'. destruct (Z.eqb_spec r m); [lia|auto].
        * unfold Lv'. destruct (Z.eqb_spec r m); [lia|auto].
        * unfold Dv'. destruct (Z.eqb_spec i m); [lia|auto]. }
  apply G; lia.
Qed.

(** ** The arrays *)

Notation Lpf := (Lpf A n col Pf Qf par).
Notation lrows := (lrows A n col Pf Qf par).

Lemma lrows_split k i : 0 <= k < n -> In i (pl k) ->
  exists c, lrows n i = lrows k i ++ k :: c.
Proof.
  intros Hk Hi. unfold LdlNum.lrows. rewrite (zr_app 0 k n), filter_app by lia. rewrite (zr_cons k n) by lia.
  cbn [filter]. apply inb_true in Hi. rewrite Hi. eauto.
Qed.

Lemma lrows_nth k i t r : 0 <= k < n -> In i (pl k) -> nth_error (lrows n i) t = Some r ->
  (r = k <-> Z.of_nat t = zlen (lrows k i)).
Proof.
  intros Hk Hi Ht. destruct (lrows_split k i Hk Hi) as [c E].
  pose proof (NoDup_lrows A n col Pf Qf par n i) as ND.
  assert (Hk' : nth_error (lrows n i) (length (lrows k i)) = Some k).
  { rewrite E, nth_error_app2, Nat.sub_diag by lia. reflexivity. }
  split.
  - intros ->. assert (t = length (lrows k i)); [|unfold zlen; lia].
    apply (NoDup_nth_error (lrows n i)); auto; [apply nth_error_Some; congruence|congruence].
  - intros Et. assert (t = length (lrows k i)) by (unfold zlen in Et; lia). subst t. congruence.
Qed.

Variables (Li Lp : arr Z).
Hypothesis HLi : forall i, 0 <= i < n -> holds Li (Lpf i) (lrows n i).
Hypothesis HLl : Lpf n <= zlen Li.
Hypothesis HLp : vec Lp (n + 1) Lpf.

Lemma cache_down_ok i k (Lv : Z -> Z -> F) (Lx : arr F) yi (g : Z -> F) :
  0 <= i < n -> 0 <= k < n ->
  (forall t r, nth_error (lrows n i) t = Some r -> r < k -> rd Lx (Lpf i + Z.of_nat t) = Ok (Lv r i)) ->
  forall b a c fuel Y, lrows n i = a ++ b ++ k :: c ->
  (forall r, In r b -> 0 <= r < k) -> NoDup b -> (length b <= fuel)%nat -> zlen Y = n ->
  (forall r, In r b -> rd Y r = Ok (g r)) ->
  wp (cache_down A fuel Li Lx k yi (Lpf i + zlen a) Y) (fun st => let '(p, Y') := st in
    p = Lpf i + zlen a + zlen b /\ zlen Y' = n /\
    (forall r, In r b -> rd Y' r = Ok (fsub A (g r) (fmul A (Lv r i) yi))) /\
    (forall r, ~ In r b -> rd Y' r = rd Y r)).
Proof.
  intros Hi Hk HLx. induction b as [|r b IH]; intros a c fuel Y E HB ND Hf LY RY.
  - cbn [app] in E. destruct fuel; cbn [cache_down]; wb.
    all: eapply wp_rd; [eapply (holds_rd Li (Lpf i) a k c); rewrite <- E; apply HLi; auto|].
    all: destruct (Z.ltb_spec k k); [lia|]; wok; rewrite zlen_nil.
    all: split; [lia|]; split; [auto|]; split; [intros r []|auto].
  - cbn [app] in E. destruct fuel as [|fuel]; [cbn in Hf; lia|]. cbn [cache_down]. wb.
    eapply wp_rd; [eapply (holds_rd Li (Lpf i) a r (b ++ k :: c)); rewrite <- E; apply HLi; auto|].
    pose proof (HB r (or_introl eq_refl)) as Hr. destruct (Z.ltb_spec r k); [|lia].
    wb. eapply wp_rd; [apply RY; left; auto|].
    wb. eapply wp_rd.
    { apply (HLx (length a) r); [|lia]. rewrite E, nth_error_app2, Nat.sub_diag by lia. reflexivity. }
    wb. apply wp_wr; [lia|]. intros Y1 LY1 RY1.
    apply NoDup_cons_iff in ND. destruct ND as [Hnr ND'].
    replace (Lpf i + zlen a + 1) with (Lpf i + zlen (a ++ [r])) by (rewrite zlen_app, zlen_cons, zlen_nil; lia).
    eapply wp_mono.
    { apply (IH (a ++ [r]) c fuel Y1); auto.
      - rewrite <- app_assoc. exact E.
      - intros x Hx. apply HB. right. auto.
      - cbn in Hf. lia.
      - lia.
      - intros x Hx. rewrite RY1. destruct (Z.eqb_spec x r); [subst; tauto|]. apply RY. right. auto. }
    intros [p Y2] [Ep [LY2 [R1 R2]]]. rewrite zlen_app, zlen_cons, zlen_nil in Ep. rewrite zlen_cons.
    split; [lia|]. split; [auto|]. split.
    + intros x [<-|Hx]; auto. rewrite R2, RY1, Z.eqb_refl by auto. reflexivity.
    + intros x Hx. cbn [In] in Hx. rewrite R2, RY1 by tauto. destruct (Z.eqb_spec x r); [subst; tauto|auto].
Qed.

Variables (y Lv : Z -> Z -> F) (Dv : Z -> F).
Hypothesis HC : forall k, 0 <= k < n -> fl k = true -> CRow k y Lv Dv.

(** State inside flagged row [k] after the columns [l1]. *)
Definition CElim (k : Z) (l1 : list Z) (st : arr F * arr F * arr F) : Prop :=
  let '(Lx, D, Y) := st in
  Lpf n <= zlen Lx /\ zlen D = n /\ zlen Y = n /\
  (forall i t r, 0 <= i < n -> nth_error (lrows n i) t = Some r -> fl r = false \/ r < k \/ (r = k /\ In i l1) ->
     rd Lx (Lpf i + Z.of_nat t) = Ok (Lv r i)) /\
  (forall i, 0 <= i < n -> i <> k -> fl i = false \/ i < k -> rd D i = Ok (Dv i)) /\
  rd D k = Ok (dfold A col Pf Qf (Lv k) (y k) k l1) /\
  (forall r, 0 <= r < k -> rd Y r = Ok (if inb r l1 then zero else yfold A n col Pf Qf par Lv (y k) k l1 r)) /\
  rd Y k = Ok zero /\
  (forall r, k < r < n -> fl r = false -> rd Y r = Ok zero).

Lemma cache_elim_ok Lti jj k l1 i l2 st :
  0 <= k < n -> fl k = true -> sl k = l1 ++ i :: l2 -> rd Lti jj = Ok i ->
  CElim k l1 st -> wp (cache_elim A Lti Li Lp k jj st) (CElim k (l1 ++ [i])).
Proof.
  intros Hk Fk E Ei HS. destruct st as [[Lx D] Y].
  destruct HS as [LLx [LD [LY [RLx [RD [RDk [RY [RYk RYo]]]]]]]].
  pose proof (HC k Hk Fk) as [SY SL SD].
  destruct (sl_split _ _ _ _ E) as [Hl1 Hl2].
  assert (Hin : In i (sl k)) by (rewrite E; apply in_elt).
  assert (Hpi : In i (pl k)) by (apply in_sl; auto).
  pose proof (pl_in A n col Pf Qf par HF k i Hk Hpi) as Hi.
  assert (Hni : ~ In i l1) by (intros H; apply Hl1 in H; lia).
  pose proof Hni as Hni'. apply inb_false in Hni'.
  destruct (lrows_split k i Hk Hpi) as [c Ec].
  unfold cache_elim. wb. eapply wp_rd; [exact Ei|].
  wb. eapply wp_rd; [rewrite RY by lia; rewrite Hni'; rewrite <- (SY _ _ _ E); reflexivity|].
  wb. apply wp_wr; [lia|]. intros Y1 LY1 RY1.
  wb. eapply wp_rd; [apply HLp; lia|].
  assert (Hlr : forall r, In r (lrows k i) -> i < r < k /\ ~ In r l1).
  { intros r Hr. apply in_lrows in Hr. destruct Hr as [Hr Hir].
    pose proof (pl_in A n col Pf Qf par HF r i ltac:(lia) Hir). split; [lia|].
    intros H1. apply Hl1 in H1. lia. }
  wb. eapply wp_mono.
  { replace (Lpf i) with (Lpf i + zlen (@nil Z)) by (rewrite zlen_nil; lia).
    eapply (cache_down_ok i k Lv Lx (y k i) (fun r => yfold A n col Pf Qf par Lv (y k) k l1 r)
      ltac:(lia) Hk) with (b := lrows k i) (c := c).
    - intros t r Ht Hr. apply RLx; auto. lia.
    - exact Ec.
    - intros r Hr. apply Hlr in Hr. lia.
    - apply NoDup_lrows.
    - assert (zlen (lrows k i) <= zlen Li); [|unfold zlen in *; lia].
      destruct (slot_bound A n col Pf Qf par HF k i Hk Hpi) as [S1 S2].
      rewrite zlen_lrows. pose proof (Lpf_nonneg A n col Pf Qf par i). lia.
    - lia.
    - intros r Hr. destruct (Hlr r Hr) as [Hr1 Hr2]. rewrite RY1. destruct (Z.eqb_spec r i); [lia|].
      rewrite RY by lia. apply inb_false in Hr2. rewrite Hr2. reflexivity. }
  intros [p Y2] [Ep [LY2 [R1 R2]]]. rewrite zlen_nil, Z.add_0_r in Ep. subst p.
  wb. eapply wp_rd; [apply RD; lia|].
  wb. rewrite (SL i Hin). wok.
  wb. eapply wp_rd; [exact RDk|].
  wb. apply wp_wr; [lia|]. intros D1 LD1 RD1.
  destruct (slot_bound A n col Pf Qf par HF k i Hk Hpi) as [Hs1 Hs2].
  pose proof (Lpf_nonneg A n col Pf Qf par i) as Hp0.
  pose proof (zlen_nonneg (lrows k i)) as Hz0. rewrite <- zlen_lrows in Hs1.
  wb. apply wp_wr; [lia|]. intros Lx1 LLx1 RLx1. wok.
  unfold CElim. split; [lia|]. split; [lia|]. split; [lia|].
  split; [|split; [|split; [|split; [|split]]]].
  - intros x t r Hx Ht Hc. rewrite RLx1.
    destruct (Z.eqb_spec (Lpf x + Z.of_nat t) (Lpf i + zlen (lrows k i))) as [EE|EE].
    + assert (Hlen : Z.of_nat t < zlen (lrows n x)).
      { assert ((t < length (lrows n x))%nat) by (apply nth_error_Some; congruence). unfold zlen. lia. }
      rewrite zlen_lrows in Hlen.
      pose proof (Lpf_succ A n col Pf Qf par x ltac:(lia)) as Sx. unfold lnzf in Sx.
      assert (x = i).
      { destruct (Z.lt_trichotomy x i) as [Hlt|[|Hlt]]; auto; exfalso.
        - pose proof (Lpf_mono A n col Pf Qf par (x + 1) i ltac:(lia)). lia.
        - pose proof (Lpf_mono A n col Pf Qf par (i + 1) x ltac:(lia)). lia. }
      subst x. assert (r = k) by (apply (lrows_nth k i t r Hk Hpi Ht); lia). subst r. reflexivity.
    + apply RLx; auto. destruct Hc as [Hc|[Hc|[-> Hc]]]; auto.
      apply in_app_or in Hc. destruct Hc as [Hc|[<-|[]]]; auto. exfalso. apply EE.
      f_equal. apply (lrows_nth k i t k Hk Hpi Ht). reflexivity.
  - intros x Hx Hne Hc. rewrite RD1. destruct (Z.eqb_spec x k); [lia|]. apply RD; auto.
  - rewrite RD1, Z.eqb_refl. unfold dfold. rewrite fold_left_app. reflexivity.
  - intros r Hr. rewrite inb_snoc. destruct (inb r (lrows k i)) eqn:Er.
    + apply inb_true in Er. rewrite (R1 r Er). destruct (Hlr r Er) as [Hr1 Hr2].
      apply inb_false in Hr2. rewrite Hr2. destruct (Z.eqb_spec r i); [lia|]. cbn [orb].
      unfold yfold. rewrite fold_left_app. cbn [fold_left].
      apply in_lrows in Er. destruct Er as [_ Er]. apply inb_true in Er. rewrite Er. reflexivity.
    + apply inb_false in Er. rewrite R2 by auto. rewrite RY1. destruct (Z.eqb_spec r i).
      * rewrite orb_true_r. reflexivity.
      * rewrite RY by lia. rewrite orb_false_r. destruct (inb r l1); auto. f_equal.
        unfold yfold. rewrite fold_left_app. cbn [fold_left].
        assert (Hnr : ~ In i (pl r)) by (intros H; apply Er; apply in_lrows; auto).
        apply inb_false in Hnr. rewrite Hnr. reflexivity.
  - rewrite R2.
    + rewrite RY1. destruct (Z.eqb_spec k i); [lia|]. auto.
    + intros H. apply Hlr in H. lia.
  - intros r Hr Fr. rewrite R2.
    + rewrite RY1. destruct (Z.eqb_spec r i); [lia|]. auto.
    + intros H. apply Hlr in H. lia.
Qed.

(** State before row [k]. *)
Definition CSt (k : Z) (st : arr F * arr F * arr F) : Prop :=
  let '(Lx, D, Y) := st in
  Lpf n <= zlen Lx /\ zlen D = n /\ zlen Y = n /\
  (forall i t r, 0 <= i < n -> nth_error (lrows n i) t = Some r -> fl r = false \/ r < k ->
     rd Lx (Lpf i + Z.of_nat t) = Ok (Lv r i)) /\
  (forall i, 0 <= i < n -> fl i = false \/ i < k -> rd D i = Ok (Dv i)) /\
  (forall r, 0 <= r < n -> fl r = false \/ r < k -> rd Y r = Ok zero).

Lemma cache_scatter_ok Ap Ai (Ax : arr F) P Pinv k Y :
  0 <= k < n -> Csc Ap Ai Ax n col -> rows_in n n col -> isperm n Pf Qf ->
  pget n P Pf -> pget n Pinv Qf ->
  zlen Y = n -> (forall r, 0 <= r <= k -> rd Y r = Ok zero) ->
  wp (cache_scatter A Ap Ai Ax P Pinv k Y) (fun Y' => zlen Y' = n /\
    (forall r, 0 <= r <= k -> rd Y' r = Ok (y0 A col Pf Qf k r)) /\ (forall r, k < r -> rd Y' r = rd Y r)).
Proof.
  intros Hk C HR HP HgP HgQ LY RY. unfold cache_scatter.
  wb. rewrite (HgP k Hk). wok. pose proof (pf_range _ _ _ HP k Hk) as HPk.
  wb. eapply wp_rd; [apply (csc_jc _ _ _ _ _ C); lia|].
  wb. eapply wp_rd; [apply (csc_jc _ _ _ _ _ C); lia|].
  eapply (wp_col _ _ _ _ _ (Pf k) (fun done Y' => zlen Y' = n /\
    (forall r, 0 <= r <= k -> rd Y' r =
       Ok (fold_left (fun acc e => if fst e =? r then fadd A acc (snd e) else acc)
             (map (fun e => (Qf (fst e), snd e)) done) zero)) /\ (forall r, k < r -> rd Y' r = rd Y r))); eauto.
  - intros done r v rest Y1 E R1 R2 [LY1 [RY1 RY1']].
    wb. eapply wp_rd; [exact R1|].
    assert (Hr : 0 <= r < n) by (eapply HR; [exact HPk|rewrite E; apply in_elt]).
    wb. rewrite (HgQ r Hr). wok. pose proof (qf_range _ _ _ HP r Hr) as HQ.
    destruct (Z.leb_spec (Qf r) k) as [Hle|Hgt].
    + wb. eapply wp_rd; [apply RY1; lia|]. wb. eapply wp_rd; [exact R2|].
      apply wp_wr; [lia|]. intros Y2 LY2 RY2. split; [lia|]. split.
      * intros x Hx. rewrite map_app, fold_left_app. cbn [map fold_left fst snd]. rewrite RY2, Z.eqb_sym.
        destruct (Z.eqb_spec (Qf r) x); [subst; auto|]. apply RY1; auto.
      * intros x Hx. rewrite RY2. destruct (Z.eqb_spec x (Qf r)); [lia|]. auto.
    + wok. split; [lia|]. split; [|auto]. intros x Hx. rewrite map_app, fold_left_app. cbn [map fold_left fst snd].
      destruct (Z.eqb_spec (Qf r) x); [lia|]. apply RY1; auto.
Qed.

(** A row outside the pattern keeps the scattered value, which is zero. *)
Lemma yfold_outside k i l : 0 <= k < n -> 0 <= i < k -> rows_in n n col -> isperm n Pf Qf ->
  ~ In i (pl k) -> (forall j, In j l -> In j (pl k)) ->
  yfold A n col Pf Qf par Lv (y k) k l i = zero.
Proof.
  intros Hk Hi HR HP Ei Hl. unfold yfold.
  assert (E0 : forall l acc, (forall j, In j l -> In j (pl k)) ->
     fold_left (fun acc j => if inb j (pl i) then fsub A acc (fmul A (Lv i j) (y k j)) else acc) l acc = acc).
  { clear l Hl. induction l as [|j l IH]; intros acc Hl; simpl; auto.
    destruct (inb j (pl i)) eqn:Ej.
    - exfalso. apply inb_true in Ej. apply Ei.
      assert (Hjk : In j (pl k)) by (apply Hl; simpl; auto).
      apply in_split in Hjk. destruct Hjk as [a1 [a2 Ea]].
      assert (In i a2).
      { apply (topo_between par k (pl k) i (pl i) a1 j a2); auto.
        - apply (fo_topo _ _ _ HF k Hk).
        - apply (fo_topo _ _ _ HF i). lia.
        - lia. }
      cbv beta in Ea |- *. rewrite Ea. apply in_or_app. simpl. auto.
    - apply IH. intros; apply Hl; simpl; auto. }
  rewrite E0 by auto. unfold y0.
  assert (E1 : forall l : list (Z * F), (forall e, In e l -> fst e <> i) ->
     fold_left (fun acc e => if fst e =? i then fadd A acc (snd e) else acc) l zero = zero).
  { clear l Hl E0. induction l as [|e l IH]; intros Hl; simpl; auto.
    destruct (Z.eqb_spec (fst e) i); [exfalso; eapply Hl; simpl; eauto|]. apply IH. intros; apply Hl; simpl; auto. }
  apply E1. intros e He Hfe. apply Ei. apply patlist_covers; auto.
  - intros x Hx. unfold brows in Hx. apply in_map_iff in Hx. destruct Hx as [[r v] [<- Hx]].
    apply (qf_range _ _ _ HP). simpl. eapply HR; [|exact Hx]. apply (pf_range _ _ _ HP). auto.
  - apply (fo_topo _ _ _ HF k Hk).
  - unfold bcol in He. apply in_map_iff in He. destruct He as [e' [Ee He]]. subst e. simpl in Hfe.
    unfold brows. apply in_map_iff. exists e'. auto.
  - lia.
Qed.

Variables (Ap Ai : arr Z) (Ax : arr F) (Ltp Lti : arr Z) (P Pinv : option (arr Z)) (U : arr Z) (tp : Z -> Z).
Hypothesis HCsc : Csc Ap Ai Ax n col.
Hypothesis HR : rows_in n n col.
Hypothesis HP : isperm n Pf Qf.
Hypothesis HgP : pget n P Pf.
Hypothesis HgQ : pget n Pinv Qf.
Hypothesis HLtp : vec Ltp (n + 1) tp.
Hypothesis Htp : forall k, 0 <= k < n -> tp (k + 1) = tp k + zlen (sl k).
Hypothesis HLti : forall k, 0 <= k < n -> holds Lti (tp k) (sl k).
Hypothesis HU : forall k, 0 <= k < n -> exists u, rd U k = Ok u /\ fl k = (u =? n).

Lemma cache_row_ok k st : 0 <= k < n -> CSt k st ->
  wp (cache_row A n Ap Ai Ax Ltp Lti Li Lp P Pinv U k st) (CSt (k + 1)).
Proof.
  intros Hk HS. destruct st as [[Lx D] Y]. destruct HS as [LLx [LD [LY [RLx [RD RY]]]]].
  unfold cache_row. destruct (HU k Hk) as [u [Eu Fu]]. wb. eapply wp_rd; [exact Eu|].
  destruct (u =? n) eqn:Eun.
  2:{ wok. split; [auto|]. split; [auto|]. split; [auto|].
      split; [intros i t r Hi Ht Hc; apply RLx; auto|split; [intros i Hi Hc; apply RD; auto|intros i Hi Hc; apply RY; auto]].
      - destruct (Z.eq_dec r k); [subst; auto|]. destruct Hc; [auto|right; lia].
      - destruct (Z.eq_dec i k); [subst; auto|]. destruct Hc; [auto|right; lia].
      - destruct (Z.eq_dec i k); [subst; auto|]. destruct Hc; [auto|right; lia]. }
  wb. apply wp_wr; [lia|]. intros Y1 LY1 RY1.
  wb. eapply wp_mono.
  { apply (cache_scatter_ok Ap Ai Ax P Pinv k Y1); auto; [lia|].
    intros r Hr. rewrite RY1. destruct (Z.eqb_spec r k); auto. apply RY; lia. }
  intros Y2 [LY2 [RY2 RY2']].
  wb. eapply wp_rd; [apply RY2; lia|].
  wb. apply wp_wr; [lia|]. intros D1 LD1 RD1.
  wb. apply wp_wr; [lia|]. intros Y3 LY3 RY3.
  wb. eapply wp_rd; [apply HLtp; lia|].
  wb. eapply wp_rd; [apply HLtp; lia|].
  wb. eapply (wp_list Lti (tp k) _ (sl k) (CElim k)).
  { apply HLti; auto. }
  { apply Htp; auto. }
  { unfold CElim. split; [lia|]. split; [lia|]. split; [lia|].
    split; [|split; [|split; [|split; [|split]]]].
    - intros i t r Hi Ht Hc. apply RLx; auto. destruct Hc as [Hc|[Hc|[_ []]]]; auto.
    - intros i Hi Hne Hc. rewrite RD1. destruct (Z.eqb_spec i k); [lia|]. auto.
    - rewrite RD1, Z.eqb_refl. reflexivity.
    - intros r Hr. rewrite RY3. destruct (Z.eqb_spec r k); [lia|]. rewrite RY2 by lia. reflexivity.
    - rewrite RY3, Z.eqb_refl. reflexivity.
    - intros r Hr Fr. rewrite RY3. destruct (Z.eqb_spec r k); [lia|]. rewrite RY2', RY1 by lia.
      destruct (Z.eqb_spec r k); [lia|]. apply RY; auto. lia. }
  { intros done i rest st E Er HS. eapply cache_elim_ok; eauto. }
  intros [[Lx4 D4] Y4] [M1 [M2 [M3 [Q1 [Q2 [Q3 [Q4 [Q5 Q6]]]]]]]].
  wb. eapply wp_rd; [exact Q3|].
  wb. apply wp_wr; [lia|]. intros D5 LD5 RD5. wok.
  split; [auto|]. split; [lia|]. split; [auto|]. split; [|split].
  - intros i t r Hi Ht Hc. apply Q1; auto. destruct Hc as [Hc|Hc]; auto.
    destruct (Z.eq_dec r k) as [->|]; [|right; left; lia]. right. right. split; auto.
    apply in_sl; auto. apply nth_error_In in Ht. apply in_lrows in Ht. tauto.
  - intros i Hi Hc. rewrite RD5. destruct (Z.eqb_spec i k).
    + subst i. rewrite <- (cs_D _ _ _ _ (HC k Hk Fu)). reflexivity.
    + apply Q2; auto. destruct Hc; [auto|right; lia].
  - intros r Hr Hc. destruct (Z.lt_trichotomy r k) as [Hlt|[->|Hgt]].
    + rewrite Q4 by lia. destruct (inb r (sl k)) eqn:Er; auto. f_equal.
      apply inb_false in Er. rewrite in_sl in Er by auto. apply yfold_outside; auto; [lia|].
      intros j Hj. apply in_sl; auto.
    + exact Q5.
    + apply Q6; [lia|]. destruct Hc; [auto|lia].
Qed.

Lemma row_cache_ok Lx D Y : 0 <= n -> CSt 0 (Lx, D, Y) ->
  wp (LDL_row_cache_numeric A n Ap Ai Ax Ltp Lti Li Lp Lx D Y P Pinv U) (fun r => fst r = n /\ CSt n (snd r)).
Proof.
  intros Hn HS. unfold LDL_row_cache_numeric. wb. apply (wp_for_le CSt); auto.
  - intros k st Hk H. apply cache_row_ok; auto.
  - intros st H. wok. auto.
Qed.

End Cache.
