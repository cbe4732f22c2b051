(** What it means for column-compressed arrays to hold a matrix, given column by column as a list of
    (row, value) pairs, and the loop rule for walking over one stored column. *)
From Coq Require Import ZArith Reals List Lia Lra Bool.
From Verif Require Import Res Arith Lists MSparse.
Import ListNotations.
Open Scope Z_scope.
Open Scope res_scope.

Definition cols (F : Type) : Type := Z -> list (Z * F).

(** Number of entries stored before column [j]. *)
Definition start {F} (col : cols F) (j : Z) : Z := sumz (fun j' => zlen (col j')) (zr 0 j).

Lemma start_0 {F} (col : cols F) : start col 0 = 0.
Proof. reflexivity. Qed.

Lemma start_succ {F} (col : cols F) j : 0 <= j -> start col (j + 1) = start col j + zlen (col j).
Proof. intros H. unfold start. rewrite zr_snoc, sumz_app by lia. simpl. lia. Qed.

Lemma start_nonneg {F} (col : cols F) j : 0 <= start col j.
Proof. apply sumz_nonneg. intros; apply zlen_nonneg. Qed.

Lemma start_mono {F} (col : cols F) a b : 0 <= a <= b -> start col a <= start col b.
Proof. intros H. apply sumz_mono_zr; auto. intros; apply zlen_nonneg. Qed.

Lemma start_ext {F G} (c1 : cols F) (c2 : cols G) j :
  (forall i, 0 <= i < j -> zlen (c1 i) = zlen (c2 i)) -> start c1 j = start c2 j.
Proof. intros H. apply sumz_ext. intros x Hx. apply in_zr in Hx. auto. Qed.

Lemma start_in {F} (col : cols F) j n t :
  0 <= j < n -> 0 <= t < zlen (col j) -> 0 <= start col j + t < start col n.
Proof.
  intros Hj Ht. pose proof (start_nonneg col j).
  pose proof (start_mono col (j + 1) n ltac:(lia)). rewrite start_succ in H0 by lia. lia.
Qed.

(** The three arrays hold [n] columns. *)
Record Csc {F} (Jc Ir : arr Z) (Pr : arr F) (n : Z) (col : cols F) : Prop := mkCsc {
  csc_jc : forall j, 0 <= j <= n -> rd Jc j = Ok (start col j);
  csc_ir : forall j t r v, 0 <= j < n -> nth_error (col j) t = Some (r, v) ->
             rd Ir (start col j + Z.of_nat t) = Ok r;
  csc_pr : forall j t r v, 0 <= j < n -> nth_error (col j) t = Some (r, v) ->
             rd Pr (start col j + Z.of_nat t) = Ok v
}.

(** Row indices below [m]. *)
Definition rows_in {F} (m n : Z) (col : cols F) : Prop :=
  forall j r v, 0 <= j < n -> In (r, v) (col j) -> 0 <= r < m.

(** A matrix structure holding an [m] x [n] matrix. *)
Record Repr {F} (M : smat F) (m n : Z) (col : cols F) : Prop := mkRepr {
  rp_m : 0 <= m;
  rp_n : 0 <= n;
  rp_sn : sn M = n;
  rp_sm : sm M = m;
  rp_nnz : nnz M = start col n;
  rp_csc : Csc (jc M) (ir M) (pr M) n col;
  rp_row : rows_in m n col
}.

Lemma Csc_ext {F} Jc Ir (Pr : arr F) n c1 c2 :
  Csc Jc Ir Pr n c1 -> (forall j, 0 <= j < n -> c1 j = c2 j) -> Csc Jc Ir Pr n c2.
Proof.
  intros [H1 H2 H3] E. 
  assert (S : forall j, 0 <= j <= n -> start c1 j = start c2 j).
  { intros j Hj. apply start_ext. intros i Hi. rewrite E; auto; lia. }
  split.
  - intros j Hj. rewrite <- S by auto. auto.
  - intros j t r v Hj Hn. rewrite <- S by lia. rewrite <- E in Hn by auto. eauto.
  - intros j t r v Hj Hn. rewrite <- S by lia. rewrite <- E in Hn by auto. eauto.
Qed.

(** Loop over column [j]. *)
Lemma wp_col {F St} Jc Ir (Pr : arr F) n col j (Inv : list (Z * F) -> St -> Prop)
      (body : Z -> St -> res St) s (Q : St -> Prop) lo hi :
  Csc Jc Ir Pr n col -> 0 <= j < n -> lo = start col j -> hi = start col (j + 1) ->
  Inv [] s ->
  (forall done r v rest s,
      col j = done ++ (r, v) :: rest ->
      rd Ir (lo + zlen done) = Ok r -> rd Pr (lo + zlen done) = Ok v ->
      Inv done s -> wp (body (lo + zlen done) s) (Inv (done ++ [(r, v)]))) ->
  (forall s, Inv (col j) s -> Q s) ->
  wp (for_ lo hi body s) Q.
Proof.
  intros C Hj -> -> H0 Hs HQ.
  assert (Hse : start col (j + 1) = start col j + zlen (col j)) by (apply start_succ; lia).
  pose proof (zlen_nonneg (col j)) as Hl.
  apply (wp_for_le (fun i s => exists done rest, col j = done ++ rest /\
            i = start col j + zlen done /\ Inv done s)).
  - lia.
  - exists [], (col j). rewrite zlen_nil. repeat split; auto; lia.
  - intros i s' Hi [done [rest [E [-> HI]]]].
    destruct rest as [|[r v] rest].
    { rewrite app_nil_r in E. rewrite <- E in Hi. lia. }
    assert (Hn : nth_error (col j) (length done) = Some (r, v)).
    { rewrite E, nth_error_app2, Nat.sub_diag by lia. reflexivity. }
    eapply wp_mono.
    + eapply Hs; eauto.
      * eapply csc_ir; eauto.
      * eapply csc_pr; eauto.
    + simpl. intros s2 HI2. exists (done ++ [(r, v)]), rest. rewrite <- app_assoc. simpl.
      repeat split; auto. rewrite zlen_app, zlen_cons, zlen_nil. lia.
  - intros s' [done [rest [E [Hi HI]]]].
    assert (rest = []).
    { destruct rest; auto. rewrite E, zlen_app, zlen_cons in Hse. pose proof (zlen_nonneg rest). lia. }
    subst rest. rewrite app_nil_r in E. apply HQ. rewrite E. exact HI.
Qed.

(** The same with the state as an exact left fold. *)
Lemma wp_col_fold {F St} Jc Ir (Pr : arr F) n col j (step : St -> Z * F -> St) (Ok_st : St -> Prop)
      (body : Z -> St -> res St) s (Q : St -> Prop) lo hi :
  Csc Jc Ir Pr n col -> 0 <= j < n -> lo = start col j -> hi = start col (j + 1) ->
  Ok_st s ->
  (forall done r v rest s,
      col j = done ++ (r, v) :: rest ->
      rd Ir (lo + zlen done) = Ok r -> rd Pr (lo + zlen done) = Ok v ->
      Ok_st s -> body (lo + zlen done) s = Ok (step s (r, v)) /\ Ok_st (step s (r, v))) ->
  (Ok_st (fold_left step (col j) s) -> Q (fold_left step (col j) s)) ->
  wp (for_ lo hi body s) Q.
Proof.
  intros C Hj Elo Ehi H0 Hs HQ.
  eapply (wp_col _ _ _ _ _ j (fun done s' => s' = fold_left step done s /\ Ok_st s')); eauto.
  - intros done r v rest s' E R1 R2 [-> HO].
    destruct (Hs _ _ _ _ _ E R1 R2 HO) as [B O']. rewrite B. simpl.
    rewrite fold_left_app. auto.
  - intros s' [-> HO]. auto.
Qed.

(** Entry (i, j) of the matrix in exact arithmetic: stored duplicates add up. *)
Definition ent (l : list (Z * R)) (i : Z) : R := sumr (fun e => if fst e =? i then snd e else 0%R) l.

Lemma ent_app l1 l2 i : ent (l1 ++ l2) i = (ent l1 i + ent l2 i)%R.
Proof. apply sumr_app. Qed.

Lemma ent_out (l : list (Z * R)) i : (forall r v, In (r, v) l -> r <> i) -> ent l i = 0%R.
Proof.
  intros H. apply sumr_zero. intros [r v] Hx. simpl. destruct (Z.eqb_spec r i); auto.
  exfalso; eapply H; eauto.
Qed.

(** Σ over the stored entries of one column = Σ over all rows of entry * weight. *)
Lemma ent_sum (l : list (Z * R)) m (x : Z -> R) :
  (forall r v, In (r, v) l -> 0 <= r < m) ->
  sumr (fun e => (snd e * x (fst e))%R) l = sumr (fun i => (ent l i * x i)%R) (zr 0 m).
Proof.
  intros H. unfold ent.
  rewrite (sumr_ext (fun i => (sumr (fun e => if fst e =? i then snd e else 0%R) l * x i)%R)
                    (fun i => sumr (fun e => if fst e =? i then snd e * x i else 0)%R l)).
  2:{ intros i _. rewrite <- sumr_scal_r. apply sumr_ext. intros e _. destruct (fst e =? i); lra. }
  rewrite sumr_swap. apply sumr_ext. intros [r v] He. simpl.
  rewrite (sumr_ext _ (fun y => if y =? r then (v * x y)%R else 0%R)).
  2:{ intros y _. rewrite Z.eqb_sym. reflexivity. }
  rewrite (sumr_delta r (fun y => (v * x y)%R)); auto.
  - apply NoDup_zr.
  - apply in_zr. eauto.
Qed.
