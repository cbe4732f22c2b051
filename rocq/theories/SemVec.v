(** What the vector and matrix-vector routines compute, for an arbitrary arithmetic (bit for bit) and,
    as sums, in exact arithmetic. *)
From Coq Require Import ZArith Reals List Lia Lra Bool.
From Verif Require Import Res Arith Lists MSparse Csc.
Import ListNotations.
Open Scope Z_scope.
Open Scope res_scope.

(** First [n] cells of a block (a caller's array may be longer). *)
Definition vec {F} (a : arr F) (n : Z) (f : Z -> F) : Prop := forall i, 0 <= i < n -> rd a i = Ok (f i).

Lemma is_vec_vec {F} (a : arr F) n f : is_vec a n f -> vec a n f.
Proof. intros [_ H]; exact H. Qed.

Lemma vec_ext {F} (a : arr F) n f g : vec a n f -> (forall i, 0 <= i < n -> f i = g i) -> vec a n g.
Proof. intros H E i Hi. rewrite <- E by auto. auto. Qed.

Lemma vec_len {F} (a : arr F) n f : vec a n f -> 0 <= n -> n <= zlen a.
Proof.
  intros H Hn. destruct (Z.eq_dec n 0) as [->|]; [apply zlen_nonneg|].
  pose proof (rd_ok_range _ _ _ (H (n - 1) ltac:(lia))). lia.
Qed.

(** A loop whose body always succeeds is a left fold. *)
Lemma for_fold {St} (step : St -> Z -> St) (body : Z -> St -> res St) lo hi s :
  (forall i s, lo <= i < hi -> body i s = Ok (step s i)) ->
  for_ lo hi body s = Ok (fold_left step (zr lo hi) s).
Proof.
  intros H. destruct (Z.le_gt_cases hi lo) as [Hl|Hl].
  - rewrite for_nil, zr_nil by lia. reflexivity.
  - remember (Z.to_nat (hi - lo)) as k eqn:E. revert lo s H Hl E.
    induction k as [|k IH]; intros lo s H Hl E; [lia|].
    rewrite for_step, zr_cons by lia. rewrite H by lia. simpl.
    destruct (Z.eq_dec (lo + 1) hi) as [<-|].
    + rewrite for_nil, zr_nil by lia. reflexivity.
    + apply IH; [|lia|lia]. intros; apply H; lia.
Qed.

Section WithArith.
Variable A : Arith.
Notation F := (car A).
Notation zero := (f0 A).

(** ** Functional meaning *)

Definition dotF (x y : Z -> F) (n : Z) : F :=
  fold_left (fun acc i => fadd A acc (fmul A (x i) (y i))) (zr 0 n) zero.

Definition axpyF (x dx : Z -> F) (alpha : F) (i : Z) : F := fadd A (x i) (fmul A (dx i) alpha).

(** One column of y := y - M x, seen at row [i]. *)
Definition mult_col (l : list (Z * F)) (xj : F) (i : Z) (acc : F) : F :=
  fold_left (fun acc e => if fst e =? i then fsub A acc (fmul A xj (snd e)) else acc) l acc.

Definition multF (col : cols F) (n : Z) (x : Z -> F) (i : Z) (y0 : F) : F :=
  fold_left (fun acc j => mult_col (col j) (x j) i acc) (zr 0 n) y0.

Definition tmultF (col : cols F) (x : Z -> F) (j : Z) (y0 : F) : F :=
  fold_left (fun acc e => fsub A acc (fmul A (snd e) (x (fst e)))) (col j) y0.

(** ** The routines *)

Lemma innerproduct_ok x y n fx fy :
  vec x n fx -> vec y n fy -> innerproduct A x y n = Ok (dotF fx fy n).
Proof.
  intros Hx Hy. unfold innerproduct. apply for_fold. intros i s Hi.
  rewrite (Hx i Hi). simpl. rewrite (Hy i Hi). reflexivity.
Qed.

Lemma norm_ok x n fx : vec x n fx -> norm A x n = fsqrt A (dotF fx fx n).
Proof.
  intros Hx. unfold norm.
  rewrite (for_fold (fun acc i => fadd A acc (fmul A (fx i) (fx i)))).
  - reflexivity.
  - intros i s Hi. rewrite (Hx i Hi). reflexivity.
Qed.

Lemma updatevariables_ok x dx alpha n fx fdx :
  is_vec x n fx -> 0 <= n -> vec dx n fdx ->
  wp (updatevariables A x dx alpha n) (fun x' => is_vec x' n (axpyF fx fdx alpha)).
Proof.
  intros [Lx Hx] Hn Hd. unfold updatevariables.
  apply (wp_fill (axpyF fx fdx alpha) 0 0 n); try lia.
  - intros i a' Hi L R1 R2. wb. eapply wp_rd.
    { rewrite R2 by lia. apply Hx; lia. }
    wb. eapply wp_rd; [apply Hd; auto|]. rewrite Z.add_0_r. apply wp_wr_eq. lia.
  - intros a' L R1 _. split; [lia|]. intros i Hi. rewrite R1 by lia. f_equal. f_equal. lia.
Qed.

Lemma fill_ok {T} (g : Z -> T) (body : Z -> arr T -> res (arr T)) n (a : arr T) :
  0 <= n -> zlen a = n ->
  (forall i a', 0 <= i < n -> body i a' = wr a' i (g i)) ->
  wp (for_ 0 n body a) (fun a' => is_vec a' n g).
Proof.
  intros Hn L Hb. apply (wp_fill g 0 0 n); try lia.
  - intros i a' Hi L' R1 R2. rewrite Hb by auto. rewrite Z.add_0_r. apply wp_wr_eq. lia.
  - intros a' L' R1 _. split; [lia|]. intros i Hi. rewrite R1 by lia. f_equal. f_equal. lia.
Qed.

Lemma TransMultiply_ok M m n col x y fx fy (strt : bool) :
  Repr M m n col -> vec x m fx -> zlen y = n ->
  (strt = false -> is_vec y n fy) -> (strt = true -> forall i, 0 <= i < n -> fy i = zero) ->
  wp (SparseMatrixTransMultiply A M x y strt)
     (fun y' => is_vec y' n (fun j => tmultF col fx j (fy j))).
Proof.
  intros RP Hx Ly Hf Ht. destruct RP as [Hm Hn Esn Esm Ennz C Hrow].
  unfold SparseMatrixTransMultiply. rewrite Esn. wb.
  apply (wp_mono _ (fun y1 => is_vec y1 n fy)).
  { destruct strt.
    - eapply wp_mono; [apply (fill_ok (fun _ => zero)); auto|].
      intros y1 H1. eapply is_vec_ext; [exact H1|]. intros. rewrite Ht; auto.
    - apply wp_ok. auto. }
  clear y Ly Hf Ht. intros y [Ly Hy].
  eapply (wp_for_le (fun k y' => zlen y' = n /\
     (forall i, 0 <= i < k -> rd y' i = Ok (tmultF col fx i (fy i))) /\
     (forall i, k <= i < n -> rd y' i = Ok (fy i)))); auto.
  - split; [auto|split; intros; [lia|apply Hy; lia]].
  - intros j y' Hj [L [R1 R2]].
    wb. eapply wp_rd; [apply (csc_jc _ _ _ _ _ C); lia|].
    wb. eapply wp_rd; [apply (csc_jc _ _ _ _ _ C); lia|].
    eapply (wp_col _ _ _ _ _ j (fun done y2 => zlen y2 = n /\
       (forall i, 0 <= i < n -> i <> j -> rd y2 i = rd y' i) /\
       rd y2 j = Ok (fold_left (fun acc e => fsub A acc (fmul A (snd e) (fx (fst e)))) done (fy j)))); eauto.
    + split; [auto|split]; auto. simpl. apply R2; lia.
    + intros done r v rest y2 E Er Ev [L2 [R3 R4]].
      wb. eapply wp_rd; [eauto|]. wb. eapply wp_rd; [eauto|]. wb. eapply wp_rd; [eauto|].
      wb. eapply wp_rd; [apply Hx; eapply Hrow; [eauto|]; rewrite E; apply in_elt|].
      apply wp_wr; [lia|]. intros a' L' R'. split; [lia|split].
      * intros i Hi Hne. rewrite R'. destruct (Z.eqb_spec i j); [lia|]. auto.
      * rewrite R', Z.eqb_refl, fold_left_app. reflexivity.
    + intros y2 [L2 [R3 R4]]. split; [auto|split].
      * intros i Hi. destruct (Z.eq_dec i j) as [->|]; [exact R4|]. rewrite R3 by lia. apply R1; lia.
      * intros i Hi. rewrite R3 by lia. apply R2; lia.
  - intros y' [L [R1 _]]. split; auto.
Qed.

Lemma Multiply_ok M m n col x y fx fy (strt : bool) :
  Repr M m n col -> vec x n fx -> zlen y = m ->
  (strt = false -> is_vec y m fy) -> (strt = true -> forall i, 0 <= i < m -> fy i = zero) ->
  wp (SparseMatrixMultiply A M x y strt)
     (fun y' => is_vec y' m (fun i => multF col n fx i (fy i))).
Proof.
  intros RP Hx Ly Hf Ht. destruct RP as [Hm Hn Esn Esm Ennz C Hrow].
  unfold SparseMatrixMultiply. rewrite Esn, Esm. wb.
  apply (wp_mono _ (fun y1 => is_vec y1 m fy)).
  { destruct strt.
    - eapply wp_mono; [apply (fill_ok (fun _ => zero)); auto|].
      intros y1 H1. eapply is_vec_ext; [exact H1|]. intros. rewrite Ht; auto.
    - apply wp_ok. auto. }
  clear y Ly Hf Ht. intros y Hy.
  eapply (wp_for_le (fun k y' => is_vec y' m (fun i => multF col k fx i (fy i)))); auto.
  intros j y' Hj [L R].
  wb. eapply wp_rd; [apply (csc_jc _ _ _ _ _ C); lia|].
  wb. eapply wp_rd; [apply (csc_jc _ _ _ _ _ C); lia|].
  eapply (wp_col _ _ _ _ _ j (fun done y2 =>
     is_vec y2 m (fun i => mult_col done (fx j) i (multF col j fx i (fy i))))); eauto.
  - split; auto.
  - intros done r v rest y2 E Er Ev [L2 R2].
    assert (Hr : 0 <= r < m) by (eapply Hrow; [eauto|]; rewrite E; apply in_elt).
    wb. eapply wp_rd; [eauto|]. wb. eapply wp_rd; [apply R2; eauto|].
    wb. eapply wp_rd; [apply Hx; auto|]. wb. eapply wp_rd; [eauto|].
    apply wp_wr; [lia|]. intros a' L' R'. split; [lia|].
    intros i Hi. rewrite R'. unfold mult_col. rewrite fold_left_app. simpl.
    rewrite Z.eqb_sym. destruct (Z.eqb_spec r i); [subst; reflexivity|]. apply R2; auto.
  - intros y2 [L2 R2]. split; auto. intros i Hi. rewrite R2 by auto. unfold multF.
    rewrite zr_snoc, fold_left_app by lia. reflexivity.
Qed.

Lemma formlambda_ok lambda s z n fs fz (fl : Z -> F) :
  0 <= n -> zlen lambda = n -> vec s n fs -> vec z n fz ->
  (forall i, 0 <= i < n -> fsqrt A (fmul A (fs i) (fz i)) = Ok (fl i)) ->
  wp (formlambda A lambda s z n) (fun l' => is_vec l' n fl).
Proof.
  intros Hn L Hs Hz Hl. apply fill_ok; auto.
  intros i a' Hi. rewrite (Hs i Hi). simpl. rewrite (Hz i Hi). simpl. rewrite Hl by auto. reflexivity.
Qed.

End WithArith.

(** ** Exact arithmetic *)

Lemma dotF_R x y n : dotF RA x y n = sumr (fun i => (x i * y i)%R) (zr 0 n).
Proof.
  unfold dotF. simpl fadd. simpl fmul. change (f0 RA) with 0%R.
  assert (G : forall l a, fold_left (fun acc i => (acc + x i * y i)%R) l a =
                          (a + sumr (fun i => (x i * y i)%R) l)%R).
  { induction l; intros; simpl; [lra|]. rewrite IHl. lra. }
  rewrite G. lra.
Qed.

Lemma mult_col_R l xj i a : mult_col RA l xj i a = (a - xj * ent l i)%R.
Proof.
  unfold mult_col, ent. revert a. cbn [car RA fsub fmul] in *.
  induction l as [|e l IH]; intros a; simpl; [lra|]. rewrite IH. destruct (fst e =? i); lra.
Qed.

(** y_i = y0_i - Σ_j M(i,j) x_j *)
Lemma multF_R col n x i y0 :
  multF RA col n x i y0 = (y0 - sumr (fun j => (ent (col j) i * x j)%R) (zr 0 n))%R.
Proof.
  unfold multF.
  assert (G : forall l a, fold_left (fun acc j => mult_col RA (col j) (x j) i acc) l a =
                          (a - sumr (fun j => (ent (col j) i * x j)%R) l)%R).
  { induction l; intros; simpl; [lra|]. rewrite IHl, mult_col_R. lra. }
  apply G.
Qed.

(** y_j = y0_j - Σ_i M(i,j) x_i *)
Lemma tmultF_R col m x j y0 :
  (forall r v, In (r, v) (col j) -> 0 <= r < m) ->
  tmultF RA col x j y0 = (y0 - sumr (fun i => (ent (col j) i * x i)%R) (zr 0 m))%R.
Proof.
  intros H. rewrite <- (ent_sum (col j) m x) by auto. unfold tmultF. clear H.
  generalize (col j). intros l. revert y0. cbn [car RA fsub fmul] in *.
  induction l as [|e l IH]; intros a; simpl; [lra|]. rewrite IH. lra.
Qed.
