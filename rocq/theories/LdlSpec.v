(** The elimination forest and the row patterns of the sparse LDL' factorisation, without memory. *)
From Coq Require Import ZArith Reals List Lia Lra Bool Permutation.
From Verif Require Import Res Arith Lists Csc.
Import ListNotations.
Open Scope Z_scope.

Definition inb (i : Z) (l : list Z) : bool := if in_dec Z.eq_dec i l then true else false.

Lemma inb_true i l : inb i l = true <-> In i l.
Proof. unfold inb. destruct (in_dec Z.eq_dec i l); split; intros; auto; discriminate. Qed.
Lemma inb_false i l : inb i l = false <-> ~ In i l.
Proof. unfold inb. destruct (in_dec Z.eq_dec i l); split; intros; auto; try discriminate; contradiction. Qed.

Lemma inb_ext i l1 l2 : (In i l1 <-> In i l2) -> inb i l1 = inb i l2.
Proof. intros H. unfold inb. destruct (in_dec Z.eq_dec i l1), (in_dec Z.eq_dec i l2); auto; tauto. Qed.

(** Nodes met when climbing from [i] until a node of [st]. *)
Fixpoint path (fuel : nat) (par : Z -> Z) (st : list Z) (i : Z) : list Z :=
  match fuel with
  | O => []
  | S f => if inb i st then [] else i :: path f par (i :: st) (par i)
  end.

(** Pattern of row [k], given the (permuted) row indices [rows] of column k above the diagonal. *)
Definition pstep (n : Z) (par : Z -> Z) (k : Z) (acc : list Z) (i : Z) : list Z :=
  if i <? k then path (S (S (Z.to_nat n))) par (k :: acc) i ++ acc else acc.

Definition patlist (n : Z) (par : Z -> Z) (rows : list Z) (k : Z) : list Z :=
  fold_left (pstep n par k) rows [].

Lemma path_st_ext fuel par st1 st2 i :
  (forall x, In x st1 <-> In x st2) -> path fuel par st1 i = path fuel par st2 i.
Proof.
  revert st1 st2 i. induction fuel as [|f IH]; intros st1 st2 i H; simpl; auto.
  rewrite (inb_ext i st1 st2) by auto. destruct (inb i st2); auto. f_equal. apply IH.
  intros x. simpl. rewrite H. tauto.
Qed.

(** [par'] only assigns parents that were missing. *)
Definition par_ext (par par' : Z -> Z) : Prop := forall i, par i <> -1 -> par' i = par i.

Lemma par_ext_refl par : par_ext par par.
Proof. intros i _. reflexivity. Qed.

Lemma par_ext_trans p1 p2 p3 : par_ext p1 p2 -> par_ext p2 p3 -> par_ext p1 p3.
Proof. intros H1 H2 i Hi. rewrite H2; rewrite H1; auto. Qed.

Lemma path_par_ext fuel par par' st i :
  par_ext par par' -> (forall x, In x (path fuel par st i) -> par x <> -1) ->
  path fuel par' st i = path fuel par st i.
Proof.
  intros HE. revert st i. induction fuel as [|f IH]; intros st i H; simpl in *; auto.
  destruct (inb i st) eqn:E; auto. simpl in H. rewrite HE by (apply H; auto). f_equal. apply IH.
  intros x Hx. apply H. auto.
Qed.

Lemma pstep_incl n par k acc i x : In x acc -> In x (pstep n par k acc i).
Proof. intros H. unfold pstep. destruct (i <? k); auto. apply in_or_app. auto. Qed.

Lemma fold_pstep_incl n par k rows acc x : In x acc -> In x (fold_left (pstep n par k) rows acc).
Proof. revert acc. induction rows as [|i rows IH]; intros acc H; simpl; auto. apply IH. apply pstep_incl. auto. Qed.

Lemma fold_pstep_par_ext n par par' k rows acc :
  par_ext par par' -> (forall x, In x (fold_left (pstep n par k) rows acc) -> par x <> -1) ->
  fold_left (pstep n par' k) rows acc = fold_left (pstep n par k) rows acc.
Proof.
  intros HE. revert acc. induction rows as [|i rows IH]; intros acc H; simpl in *; auto.
  assert (E : pstep n par' k acc i = pstep n par k acc i).
  { unfold pstep. destruct (i <? k) eqn:Ei; auto. f_equal. apply path_par_ext; auto.
    intros x Hx. apply H. apply fold_pstep_incl. unfold pstep. rewrite Ei. apply in_or_app. auto. }
  rewrite E. apply IH. auto.
Qed.

Lemma patlist_par_ext n par par' rows k :
  par_ext par par' -> (forall x, In x (patlist n par rows k) -> par x <> -1) ->
  patlist n par' rows k = patlist n par rows k.
Proof. intros. apply fold_pstep_par_ext; auto. Qed.

(** A list closed under parents, children first. *)
Definition topo (par : Z -> Z) (k : Z) (l : list Z) : Prop :=
  NoDup l /\ (forall i, In i l -> 0 <= i < k /\ i < par i) /\
  (forall l1 i l2, l = l1 ++ i :: l2 -> par i = k \/ In (par i) l2).

Lemma topo_nil par k : topo par k [].
Proof. split; [constructor|split]; [simpl; tauto|]. intros [|] i l2 H; discriminate H. Qed.

Lemma topo_par par k l i : topo par k l -> In i l -> par i = k \/ In (par i) l.
Proof.
  intros [_ [_ H]] Hi. apply in_split in Hi. destruct Hi as [l1 [l2 E]].
  destruct (H _ _ _ E); auto. right. rewrite E. apply in_or_app. simpl. auto.
Qed.

(** Climbing from [i]: every node on the way has a larger parent, at most [k]. *)
Lemma path_topo fuel par k acc i :
  topo par k acc -> 0 <= i <= k ->
  (forall x, 0 <= x < k -> In x (path fuel par (k :: acc) i) -> x < par x <= k) ->
  (Z.to_nat (k - i) < fuel)%nat ->
  topo par k (path fuel par (k :: acc) i ++ acc) /\ In i (k :: path fuel par (k :: acc) i ++ acc).
Proof.
  intros HT Hi.
  (* generalise: [vis] already visited below i *)
  assert (G : forall fuel vis i, 0 <= i <= k ->
     (forall x, In x vis -> x < i) ->
     (forall x, 0 <= x < k -> In x (path fuel par (vis ++ k :: acc) i) -> x < par x <= k) ->
     (Z.to_nat (k - i) < fuel)%nat ->
     topo par k (path fuel par (vis ++ k :: acc) i ++ acc) /\
     In i (k :: path fuel par (vis ++ k :: acc) i ++ acc) /\
     (forall x, In x (path fuel par (vis ++ k :: acc) i) -> i <= x)).
  { clear fuel i Hi. induction fuel as [|f IH]; intros vis i Hi Hv Hp Hf; [lia|].
    simpl. simpl in Hp. destruct (inb i (vis ++ k :: acc)) eqn:E.
    - apply inb_true in E. split; [exact HT|]. split; [|simpl; tauto].
      apply in_app_or in E. destruct E as [E|E]; [apply Hv in E; lia|exact E].
    - apply inb_false in E.
      assert (Hik : i < k).
      { destruct (Z.eq_dec i k); [|lia]. subst. exfalso. apply E. apply in_or_app. simpl. auto. }
      destruct (Hp i ltac:(lia) (or_introl eq_refl)) as [P1 P2].
      destruct (IH (i :: vis) (par i)) as [I1 [I2 I3]]; try lia.
      { intros x [<-|Hx]; [lia|]. apply Hv in Hx. lia. }
      { intros x Hx Hin. apply Hp; auto. right. exact Hin. }
      simpl in I1, I2, I3. destruct I1 as [N1 [N2 N3]].
      split; [|split].
      + split; [|split].
        * simpl. constructor; auto. intros Hin. apply in_app_or in Hin. destruct Hin as [Hin|Hin].
          -- apply I3 in Hin. lia.
          -- apply E. apply in_or_app. right. simpl. auto.
        * intros x. simpl. intros [<-|Hx]; [lia|]. apply N2. auto.
        * intros [|a l1] x l2 EQ; simpl in EQ; inversion EQ; subst.
          -- destruct I2 as [I2|I2]; auto.
          -- eapply N3; eauto.
      + simpl. auto.
      + intros x [<-|Hx]; [lia|]. apply I3 in Hx. lia. }
  intros Hp Hf. destruct (G fuel [] i) as [G1 [G2 _]]; auto. simpl. tauto.
Qed.

(** Everything about the patterns that the factorisation needs. *)
Record forest (n : Z) (par : Z -> Z) (rows : Z -> list Z) : Prop := mkForest {
  fo_par : forall i, 0 <= i < n -> par i = -1 \/ i < par i < n;
  fo_topo : forall k, 0 <= k < n -> topo par k (patlist n par (rows k) k);
  fo_exact : forall i k, 0 <= i < n -> par i = k -> k <> -1 -> In i (patlist n par (rows k) k)
}.

Lemma patlist_covers n par rows k i :
  0 <= k < n -> (forall i, In i rows -> 0 <= i < n) ->
  topo par k (patlist n par rows k) -> In i rows -> i < k -> In i (patlist n par rows k).
Proof.
  intros Hk Hr HT Hi Hik. unfold patlist in *.
  apply in_split in Hi. destruct Hi as [l1 [l2 ->]]. rewrite fold_left_app in *. simpl in *.
  apply fold_pstep_incl. unfold pstep. destruct (Z.ltb_spec i k); [|lia].
  simpl. destruct (inb i _) eqn:E.
  - apply inb_true in E. simpl in E. destruct E as [->|E]; [lia|exact E].
  - simpl. auto.
Qed.

(** If [i] is in the patterns of rows r < k then [r] is in the pattern of row k, after [i]. *)
Lemma topo_between par k lk r lr l1 i l2 :
  topo par k lk -> topo par r lr -> r < k -> lk = l1 ++ i :: l2 -> In i lr -> In r l2.
Proof.
  intros TK TR Hrk E Hi.
  assert (Hir : 0 <= i < r) by (apply TR; auto).
  remember (Z.to_nat (r - i)) as d eqn:Ed. revert l1 i l2 E Hi Hir Ed.
  induction d as [d IH] using lt_wf_ind. intros l1 i l2 E Hi Hir Ed.
  pose proof TK as [ND [HB HT]].
  destruct (topo_par _ _ _ _ TR Hi) as [Hp|Hp].
  - destruct (HT _ _ _ E) as [Hq|Hq]; [lia|]. rewrite Hp in Hq. exact Hq.
  - assert (Hpr : 0 <= par i < r) by (apply TR; auto).
    destruct (HT _ _ _ E) as [Hq|Hq]; [lia|].
    apply in_split in Hq. destruct Hq as [m1 [m2 E2]].
    assert (Hlt : i < par i) by (apply TR; auto).
    rewrite E2. apply in_or_app. right. right.
    eapply (IH (Z.to_nat (r - par i))) with (l1 := l1 ++ i :: m1) (i := par i); auto; try lia.
    rewrite E, E2, <- app_assoc. reflexivity.
Qed.

Lemma topo_par_ext par par' k l : par_ext par par' -> topo par k l -> topo par' k l.
Proof.
  intros HE [ND [HB HT]].
  assert (E : forall i, In i l -> par' i = par i).
  { intros i Hi. apply HE. destruct (HB i Hi). lia. }
  split; [auto|split].
  - intros i Hi. rewrite E by auto. auto.
  - intros l1 i l2 EQ. rewrite E by (rewrite EQ; apply in_elt). eauto.
Qed.

Lemma topo_not_m1 par k l i : topo par k l -> In i l -> par i <> -1.
Proof. intros [_ [HB _]] Hi. destruct (HB i Hi). lia. Qed.

Lemma path_notin fuel par st i x : In x (path fuel par st i) -> ~ In x st.
Proof.
  revert st i. induction fuel as [|f IH]; intros st i H; simpl in H; [tauto|].
  destruct (inb i st) eqn:E; [destruct H|]. apply inb_false in E.
  destruct H as [<-|H]; auto. apply IH in H. simpl in H. tauto.
Qed.

(** The parents are determined by the patterns of the columns. *)
Lemma path_agree fuel par par' k st i :
  (forall x, 0 <= x < k -> 0 <= par x < k -> par x = par' x) ->
  (forall x, 0 <= x < k -> 0 <= par' x < k -> par x = par' x) ->
  (forall x, In x (path fuel par st i) -> 0 <= x < k /\ 0 <= par x <= k) ->
  (forall x, In x (path fuel par' st i) -> 0 <= x < k /\ 0 <= par' x <= k) ->
  path fuel par st i = path fuel par' st i.
Proof.
  intros H1 H2. revert st i.
  induction fuel as [|f IH]; intros st i P P'; simpl in *; auto.
  destruct (inb i st) eqn:E; auto.
  assert (Ei : par i = par' i).
  { pose proof (P i (or_introl eq_refl)). pose proof (P' i (or_introl eq_refl)).
    destruct (Z.eq_dec (par i) k), (Z.eq_dec (par' i) k); try lia.
    - apply H2; lia.
    - apply H1; lia.
    - apply H1; lia. }
  rewrite <- Ei in P'. rewrite <- Ei. f_equal. apply IH; intros x Hx.
  - apply P. right. exact Hx.
  - apply P'. right. exact Hx.
Qed.

Lemma topo_par_le par k l i : topo par k l -> In i l -> 0 <= i < k /\ 0 <= par i <= k.
Proof.
  intros HT Hi. pose proof HT as [_ [HB _]]. pose proof (HB _ Hi).
  destruct (topo_par _ _ _ _ HT Hi) as [H1|H1]; [lia|].
  destruct (HB _ H1). lia.
Qed.

Lemma fold_pstep_agree n par par' k rows acc :
  (forall x, 0 <= x < k -> 0 <= par x < k -> par x = par' x) ->
  (forall x, 0 <= x < k -> 0 <= par' x < k -> par x = par' x) ->
  (forall x, In x (fold_left (pstep n par k) rows acc) -> 0 <= x < k /\ 0 <= par x <= k) ->
  (forall x, In x (fold_left (pstep n par' k) rows acc) -> 0 <= x < k /\ 0 <= par' x <= k) ->
  fold_left (pstep n par k) rows acc = fold_left (pstep n par' k) rows acc.
Proof.
  intros H1 H2. revert acc. induction rows as [|i rows IH]; intros acc B B'; simpl in *; auto.
  assert (E : pstep n par k acc i = pstep n par' k acc i).
  { assert (B1 : forall x, In x (pstep n par k acc i) -> 0 <= x < k /\ 0 <= par x <= k)
      by (intros x Hx; apply B; apply fold_pstep_incl; auto).
    assert (B1' : forall x, In x (pstep n par' k acc i) -> 0 <= x < k /\ 0 <= par' x <= k)
      by (intros x Hx; apply B'; apply fold_pstep_incl; auto).
    unfold pstep in *. destruct (i <? k) eqn:Ei; auto. f_equal.
    apply (path_agree _ _ _ k); auto; intros x Hx.
    - apply B1. apply in_or_app. auto.
    - apply B1'. apply in_or_app. auto. }
  rewrite E in *. apply IH; auto.
Qed.

Lemma patlist_agree n par par' rows k :
  (forall x, 0 <= x < k -> 0 <= par x < k -> par x = par' x) ->
  (forall x, 0 <= x < k -> 0 <= par' x < k -> par x = par' x) ->
  topo par k (patlist n par rows k) -> topo par' k (patlist n par' rows k) ->
  patlist n par rows k = patlist n par' rows k.
Proof.
  intros H1 H2 T T'. apply fold_pstep_agree; auto.
  - intros x Hx. eapply topo_par_le; eauto.
  - intros x Hx. eapply topo_par_le; eauto.
Qed.

Lemma forest_unique n par par' rows :
  0 <= n -> forest n par rows -> forest n par' rows -> forall i, 0 <= i < n -> par i = par' i.
Proof.
  intros Hn F F'.
  assert (B : forall k, 0 <= k -> k <= n ->
     (forall x, 0 <= x < n -> 0 <= par x < k -> par x = par' x) /\
     (forall x, 0 <= x < n -> 0 <= par' x < k -> par x = par' x)).
  { apply (zr_ind (fun k => k <= n ->
     (forall x, 0 <= x < n -> 0 <= par x < k -> par x = par' x) /\
     (forall x, 0 <= x < n -> 0 <= par' x < k -> par x = par' x))).
    - intros _. split; intros; lia.
    - intros k Hk IH Hkn. destruct (IH ltac:(lia)) as [H1 H2].
      assert (E : patlist n par (rows k) k = patlist n par' (rows k) k).
      { apply patlist_agree.
        - intros x Hx Hp. apply H1; lia.
        - intros x Hx Hp. apply H2; lia.
        - apply (fo_topo _ _ _ F). lia.
        - apply (fo_topo _ _ _ F'). lia. }
      split; intros x Hx Hp.
      + destruct (Z.lt_ge_cases (par x) k); [apply H1; auto; lia|].
        assert (Epx : par x = k) by lia. rewrite Epx.
        pose proof (fo_exact _ _ _ F x k Hx Epx ltac:(lia)) as Hin. rewrite E in Hin.
        pose proof (topo_par_le _ _ _ _ (fo_topo _ _ _ F' k ltac:(lia)) Hin).
        destruct (Z.eq_dec (par' x) k); auto. rewrite <- (H2 x Hx ltac:(lia)). lia.
      + destruct (Z.lt_ge_cases (par' x) k); [apply H2; auto; lia|].
        assert (Epx : par' x = k) by lia. rewrite Epx.
        pose proof (fo_exact _ _ _ F' x k Hx Epx ltac:(lia)) as Hin. rewrite <- E in Hin.
        pose proof (topo_par_le _ _ _ _ (fo_topo _ _ _ F k ltac:(lia)) Hin).
        destruct (Z.eq_dec (par x) k); auto. rewrite (H1 x Hx ltac:(lia)). lia. }
  intros i Hi. destruct (B n Hn ltac:(lia)) as [H1 H2].
  destruct (fo_par _ _ _ F i Hi) as [P|P]; [|apply H1; lia].
  destruct (fo_par _ _ _ F' i Hi) as [P'|P']; [lia|]. apply H2; lia.
Qed.
