(** Exact arithmetic: the factors multiply back to the matrix, and the solves solve the system. *)
From Coq Require Import ZArith Reals List Lia Lra Bool Permutation.
From Verif Require Import Res Arith Lists MSparse Csc SemVec MLdl LdlSpec LdlSym LdlNum LdlSolve.
Import ListNotations.
Open Scope Z_scope.

(** ** Pivot regularisation *)

Definition reg (d : R) : R :=
  if Rle_dec (Rabs d) (1 / 100000000000000)
  then (if Rle_dec d 0 then - (1 / 10000000) else 1 / 10000000)%R
  else d.

Lemma regularize_R d : regularize RA d = reg d.
Proof.
  unfold regularize, reg, ldl_eps, ldl_delta. cbn [car RA fle fmul fopp fdec].
  change (f0 RA) with 0%R. change (f1 RA) with 1%R.
  unfold Rleb. destruct (Rle_dec d 0) as [H|H].
  - rewrite Rabs_left1 by lra. replace (- (1) * d)%R with (- d)%R by lra.
    destruct (Rle_dec (- d) (1 / 100000000000000)); lra.
  - rewrite Rabs_right by lra. replace (1 * d)%R with d by lra.
    destruct (Rle_dec d (1 / 100000000000000)); lra.
Qed.

Lemma reg_nonzero d : reg d <> 0%R.
Proof.
  unfold reg. destruct (Rle_dec (Rabs d) _) as [H|H].
  - destruct (Rle_dec d 0); lra.
  - intros E. subst. rewrite Rabs_R0 in H. lra.
Qed.

Lemma reg_big d : (Rabs d > 1 / 100000000000000)%R -> reg d = d.
Proof. intros H. unfold reg. destruct (Rle_dec (Rabs d) _); [lra|auto]. Qed.

Lemma reg_close d : (Rabs (reg d - d) <= 1 / 10000000 + 1 / 100000000000000)%R.
Proof.
  unfold reg. destruct (Rle_dec (Rabs d) _) as [H|H].
  - eapply Rle_trans; [apply Rabs_triang|]. rewrite Rabs_Ropp.
    destruct (Rle_dec d 0).
    + rewrite Rabs_Ropp, (Rabs_right (1 / 10000000)) by lra. lra.
    + rewrite (Rabs_right (1 / 10000000)) by lra. lra.
  - rewrite Rminus_diag_eq, Rabs_R0 by auto. lra.
Qed.

Lemma div_ok_R : div_ok RA.
Proof. intros x d. rewrite regularize_R. exists (x / reg d)%R. apply RA_div. apply reg_nonzero. Qed.

Lemma div_ok_total A : total_arith A -> div_ok A.
Proof. intros [H _] x d. apply H. Qed.

(** ** Sums *)

Lemma fold_sub_cond {T} (p : T -> bool) (g : T -> R) l a :
  fold_left (fun acc j => if p j then (acc - g j)%R else acc) l a =
  (a - sumr (fun j => if p j then g j else 0%R) l)%R.
Proof.
  revert a. induction l as [|x l IH]; intros a; simpl; [lra|]. rewrite IH. destruct (p x); lra.
Qed.

Lemma fold_sub_all {T} (g : T -> R) l a :
  fold_left (fun acc j => (acc - g j)%R) l a = (a - sumr g l)%R.
Proof. revert a. induction l as [|x l IH]; intros a; simpl; [lra|]. rewrite IH. lra. Qed.

Lemma fold_add_cond {T} (p : T -> bool) (g : T -> R) l a :
  fold_left (fun acc j => if p j then (acc + g j)%R else acc) l a =
  (a + sumr (fun j => if p j then g j else 0%R) l)%R.
Proof.
  revert a. induction l as [|x l IH]; intros a; simpl; [lra|]. rewrite IH. destruct (p x); lra.
Qed.

(** A sum over a duplicate-free list of indices, as a sum over the range with a membership test. *)
Lemma sumr_inb (f : Z -> R) l n :
  NoDup l -> (forall x, In x l -> 0 <= x < n) ->
  sumr f l = sumr (fun x => if inb x l then f x else 0%R) (zr 0 n).
Proof.
  intros ND HB. rewrite <- sumr_filter. apply sumr_perm.
  apply NoDup_Permutation; auto.
  - apply NoDup_filter, NoDup_zr.
  - intros x. rewrite filter_In, in_zr, inb_true. split; [intros; split; auto|tauto].
Qed.

(** ** The factorisation *)

Section Fact.
Variables (n : Z) (col : cols R) (Pf Qf par : Z -> Z).
Notation rows := (brows Pf Qf col).
Notation pl := (fun k => patlist n par (rows k) k).
Hypothesis Hn : 0 <= n.
Hypothesis HF : forest n par rows.
Hypothesis HP : isperm n Pf Qf.
Hypothesis HR : rows_in n n col.
Variables (y Lv : Z -> Z -> R) (Dv : Z -> R).
Hypothesis HN : NumSpec RA n col Pf Qf par y Lv Dv.

(** The unit lower triangular factor. *)
Definition LL (r j : Z) : R :=
  if r =? j then 1%R else if inb j (pl r) then Lv r j else 0%R.

(** The pivot before regularisation. *)
Definition piv (k : Z) : R := dfold RA col Pf Qf (Lv k) (y k) k (pl k).

Definition Bmat (r k : Z) : R := ent (bcol Pf Qf col k) r.

Lemma y0_R k r : y0 RA col Pf Qf k r = Bmat r k.
Proof.
  unfold y0, Bmat, ent. cbn [car RA fadd]. change (f0 RA) with 0%R.
  rewrite (fold_add_cond (fun e => fst e =? r) (fun e : Z * R => snd e)). lra.
Qed.

Lemma Dv_reg k : 0 <= k < n -> Dv k = reg (piv k).
Proof. intros Hk. rewrite <- regularize_R. apply (rs_D _ _ _ _ _ _ _ _ _ _ (HN k Hk)). Qed.

Lemma Dv_nonzero k : 0 <= k < n -> Dv k <> 0%R.
Proof. intros Hk. rewrite Dv_reg by auto. apply reg_nonzero. Qed.

Lemma Lv_D k i : 0 <= k < n -> In i (pl k) -> (Lv k i * Dv i)%R = y k i.
Proof.
  intros Hk Hi. pose proof (rs_L _ _ _ _ _ _ _ _ _ _ (HN k Hk) i Hi) as E.
  pose proof (pl_in RA n col Pf Qf par HF k i Hk Hi) as Hik.
  pose proof (Dv_nonzero i ltac:(lia)) as HD.
  rewrite RA_div in E by auto. inversion E as [E']. field. auto.
Qed.

(** y, extended by zero outside the pattern. *)
Definition Yv (k r : Z) : R := if inb r (pl k) then y k r else 0%R.

Lemma Yv_LL k j : 0 <= k < n -> 0 <= j < k -> Yv k j = (LL k j * Dv j)%R.
Proof.
  intros Hk Hj. unfold Yv, LL. destruct (Z.eqb_spec k j); [lia|].
  destruct (inb j (pl k)) eqn:E; [|lra]. apply inb_true in E. symmetry. apply Lv_D; auto.
Qed.

Lemma not_both k r j : 0 <= k < n -> 0 <= r < k -> ~ In r (pl k) -> In j (pl r) -> In j (pl k) -> False.
Proof.
  intros Hk Hr Hn' Hjr Hjk. apply Hn'. apply in_split in Hjk. destruct Hjk as [a1 [a2 Ea]].
  assert (In r a2).
  { apply (topo_between par k (pl k) r (pl r) a1 j a2); auto.
    - apply (fo_topo _ _ _ HF k Hk).
    - apply (fo_topo _ _ _ HF r). lia.
    - lia. }
  rewrite Ea. apply in_or_app. simpl. auto.
Qed.

Lemma row_rel k r : 0 <= k < n -> 0 <= r < k ->
  (Yv k r + sumr (fun j => LL r j * Yv k j) (zr 0 r))%R = Bmat r k.
Proof.
  intros Hk Hr. unfold Yv at 1. destruct (inb r (pl k)) eqn:E.
  - apply inb_true in E. apply in_split in E. destruct E as [l1 [l2 E]].
    pose proof (rs_y _ _ _ _ _ _ _ _ _ _ (HN k Hk) _ _ _ E) as Ey. rewrite Ey.
    unfold yfold. cbn [car RA fsub fmul].
    rewrite (fold_sub_cond (fun j => inb j (pl r)) (fun j => (Lv r j * y k j)%R)).
    rewrite y0_R.
    enough (sumr (fun j => if inb j (pl r) then (Lv r j * y k j)%R else 0%R) l1 =
            sumr (fun j => (LL r j * Yv k j)%R) (zr 0 r)) by lra.
    pose proof (fo_topo _ _ _ HF k Hk) as [ND _]. cbv beta in E. rewrite E in ND.
    assert (ND1 : NoDup l1) by (clear -ND; induction l1; [constructor|]; simpl in ND; inversion ND; subst;
      constructor; [intros H; apply H1, in_or_app; auto|auto]).
    rewrite (sumr_inb _ l1 n); auto.
    2:{ intros x Hx. assert (In x (pl k)) by (cbv beta; rewrite E; apply in_or_app; auto).
        apply (pl_in RA n col Pf Qf par HF k x Hk) in H. lia. }
    rewrite (zr_app 0 r n), sumr_app by lia.
    rewrite (sumr_zero _ (zr r n)), Rplus_0_r.
    2:{ intros x Hx. apply in_zr in Hx. destruct (inb x l1); auto. destruct (inb x (pl r)) eqn:I; auto.
        apply inb_true in I. apply (pl_in RA n col Pf Qf par HF r x) in I; lia. }
    apply sumr_ext. intros j Hj. apply in_zr in Hj. unfold LL, Yv.
    destruct (Z.eqb_spec r j); [lia|].
    destruct (inb j (pl r)) eqn:I1; [|destruct (inb j l1); lra].
    destruct (inb j (pl k)) eqn:I2.
    + assert (In j l1).
      { apply inb_true in I1. apply inb_true in I2. cbv beta in I2. rewrite E in I2.
        apply in_app_or in I2. destruct I2 as [I2|[I2|I2]]; auto; [lia|].
        exfalso. apply in_split in I2. destruct I2 as [a1 [a2 Ea]].
        assert (In r a2).
        { apply (topo_between par k (pl k) r (pl r) (l1 ++ r :: a1) j a2); auto.
          - apply (fo_topo _ _ _ HF k Hk).
          - apply (fo_topo _ _ _ HF r). lia.
          - lia.
          - cbv beta. rewrite E, Ea, <- app_assoc. reflexivity. }
        apply NoDup_remove_2 in ND. apply ND. apply in_or_app. right. rewrite Ea. apply in_or_app. simpl. auto. }
      apply inb_true in H. rewrite H. lra.
    + assert (inb j l1 = false).
      { apply inb_false. intros H. apply inb_false in I2. apply I2. cbv beta. rewrite E. apply in_or_app. auto. }
      rewrite H. lra.
  - apply inb_false in E. rewrite sumr_zero.
    + (* the entry is zero *)
      unfold Bmat. rewrite ent_out; [lra|]. intros r' v Hin E'. subst r'. apply E.
      apply patlist_covers; auto.
      * intros x Hx. unfold brows in Hx. apply in_map_iff in Hx. destruct Hx as [[r0 v0] [<- Hx]].
        apply (qf_range _ _ _ HP). simpl. eapply HR; [|exact Hx]. apply (pf_range _ _ _ HP). auto.
      * apply (fo_topo _ _ _ HF k Hk).
      * unfold bcol in Hin. apply in_map_iff in Hin. destruct Hin as [e' [Ee He]]. inversion Ee; subst.
        unfold brows. apply in_map_iff. exists e'. auto.
      * lia.
    + intros j Hj. apply in_zr in Hj. unfold LL, Yv. destruct (Z.eqb_spec r j); [lia|].
      destruct (inb j (pl r)) eqn:I1; [|lra]. destruct (inb j (pl k)) eqn:I2; [|lra].
      exfalso. apply inb_true in I1. apply inb_true in I2. eapply (not_both k r j); eauto.
Qed.

Lemma diag_rel k : 0 <= k < n ->
  piv k = (Bmat k k - sumr (fun j => LL k j * Dv j * LL k j) (zr 0 k))%R.
Proof.
  intros Hk. unfold piv, dfold. cbn [car RA fsub fmul].
  rewrite (fold_sub_all (fun j => (Lv k j * y k j)%R)). rewrite y0_R. f_equal.
  pose proof (fo_topo _ _ _ HF k Hk) as [ND [HB _]].
  rewrite (sumr_inb _ _ k); auto.
  2:{ intros x Hx. apply HB. auto. }
  apply sumr_ext. intros j Hj. apply in_zr in Hj.
  pose proof (Yv_LL k j Hk Hj) as EY. unfold Yv in EY. unfold LL in *.
  destruct (Z.eqb_spec k j); [lia|]. destruct (inb j (patlist n par (rows k) k)) eqn:E; [|lra].
  apply inb_true in E. rewrite <- (Lv_D k j Hk E). lra.
Qed.

(** Upper triangle of L D L' . *)
Lemma LDL_upper r k : 0 <= r <= k -> k < n ->
  sumr (fun j => LL r j * Dv j * LL k j)%R (zr 0 (r + 1)) =
  (Bmat r k + (if r =? k then Dv k - piv k else 0))%R.
Proof.
  intros Hr Hk. rewrite zr_snoc, sumr_app by lia. cbn [sumr].
  destruct (Z.eqb_spec r k) as [->|Hne].
  - rewrite (diag_rel k) by lia. unfold LL at 3 4. rewrite Z.eqb_refl. lra.
  - rewrite <- (row_rel k r) by lia. rewrite (Yv_LL k r) by lia.
    rewrite (sumr_ext (fun j => LL r j * Dv j * LL k j)%R (fun j => LL r j * Yv k j)%R).
    2:{ intros j Hj. apply in_zr in Hj. rewrite (Yv_LL k j) by lia. lra. }
    unfold LL at 2. rewrite Z.eqb_refl. lra.
Qed.

Lemma LL_upper r j : 0 <= r < n -> r < j -> LL r j = 0%R.
Proof.
  intros Hr Hj. unfold LL. destruct (Z.eqb_spec r j); [lia|].
  destruct (inb j (pl r)) eqn:I; auto. apply inb_true in I. apply (pl_in RA n col Pf Qf par HF r j) in I; lia.
Qed.

Lemma LDL_full_upper r k : 0 <= r <= k -> k < n ->
  sumr (fun j => LL r j * Dv j * LL k j)%R (zr 0 n) =
  (Bmat r k + (if r =? k then Dv k - piv k else 0))%R.
Proof.
  intros Hr Hk. rewrite <- LDL_upper by lia. rewrite (zr_app 0 (r + 1) n), sumr_app by lia.
  rewrite (sumr_zero _ (zr (r + 1) n)); [lra|].
  intros j Hj. apply in_zr in Hj. rewrite (LL_upper r j) by lia. lra.
Qed.

(** With a symmetric matrix: entry (r, k) of P K P' + E = L D L'. *)
Hypothesis Hsym : forall i j, 0 <= i < n -> 0 <= j < n -> ent (col j) i = ent (col i) j.

Lemma Bmat_ent r k : 0 <= r < n -> 0 <= k < n -> Bmat r k = ent (col (Pf k)) (Pf r).
Proof.
  intros Hr Hk. unfold Bmat, bcol, ent. rewrite sumr_map. apply sumr_ext. intros [a v] Ha. simpl.
  assert (0 <= a < n) by (eapply HR; [|exact Ha]; apply (pf_range _ _ _ HP); auto).
  destruct (Z.eqb_spec (Qf a) r) as [E|E], (Z.eqb_spec a (Pf r)) as [E2|E2]; auto.
  - exfalso. apply E2. rewrite <- E. symmetry. apply (pf_qf _ _ _ HP). auto.
  - exfalso. apply E. subst a. apply (qf_pf _ _ _ HP). auto.
Qed.

Lemma LDL_entry r k : 0 <= r < n -> 0 <= k < n ->
  sumr (fun j => LL r j * Dv j * LL k j)%R (zr 0 n) =
  (ent (col (Pf k)) (Pf r) + (if r =? k then Dv k - piv k else 0))%R.
Proof.
  intros Hr Hk. destruct (Z.le_gt_cases r k).
  - rewrite LDL_full_upper, Bmat_ent by lia. auto.
  - rewrite (sumr_ext _ (fun j => LL k j * Dv j * LL r j)%R) by (intros; lra).
    rewrite LDL_full_upper, Bmat_ent by lia.
    rewrite Hsym by (apply (pf_range _ _ _ HP); auto).
    destruct (Z.eqb_spec k r), (Z.eqb_spec r k); try lia. auto.
Qed.

(** ** Solving *)

Definition lc : cols R := lcol RA n col Pf Qf par Lv.

Lemma lc_ent j r : 0 <= j < n -> 0 <= r < n -> r <> j -> ent (lc j) r = LL r j.
Proof.
  intros Hj Hr Hne. unfold ent, lc, lcol. rewrite sumr_map. simpl.
  unfold LL. destruct (Z.eqb_spec r j); [lia|].
  destruct (inb j (pl r)) eqn:I.
  - rewrite (sumr_delta r (fun x => Lv x j)); auto.
    + apply NoDup_lrows.
    + apply in_lrows. split; auto. apply inb_true. auto.
  - apply (sumr_delta_out r (fun x => Lv x j)). intros H. apply in_lrows in H.
    apply inb_false in I. tauto.
Qed.

Lemma lc_lower : lower RA n lc.
Proof. intros j r v Hj Hin. apply (lcol_lower RA n col Pf Qf par HF Lv j r v Hj Hin). Qed.

Lemma lstep_R l xj r acc : lstep RA l xj r acc = (acc - ent l r * xj)%R.
Proof.
  unfold lstep, ent. cbn [car RA fsub fmul].
  rewrite (fold_sub_cond (fun e => fst e =? r) (fun e => (snd e * xj)%R)).
  rewrite <- sumr_scal_r. f_equal. apply sumr_ext. intros e _. destruct (fst e =? r); lra.
Qed.

Lemma lsolve_succ m b r : 0 <= m ->
  lsolveF RA lc (m + 1) b r = (lsolveF RA lc m b r - ent (lc m) r * lsolveF RA lc m b m)%R.
Proof.
  intros Hm. unfold lsolveF. rewrite zr_snoc, fold_left_app by lia. cbn [fold_left]. apply lstep_R.
Qed.

Lemma lc_ent_low j r : 0 <= j < n -> r <= j -> ent (lc j) r = 0%R.
Proof. intros Hj Hr. apply ent_out. intros r' v Hin. pose proof (lc_lower j r' v Hj Hin). lia. Qed.

Lemma lsolve_stable b r m : 0 <= r < n -> r <= m -> m <= n -> lsolveF RA lc m b r = lsolveF RA lc r b r.
Proof.
  intros Hr. revert m. apply (zr_ind (fun m => m <= n -> lsolveF RA lc m b r = lsolveF RA lc r b r)); auto.
  intros k Hk IH Hkn. rewrite lsolve_succ by lia. rewrite lc_ent_low by lia. rewrite IH by lia. lra.
Qed.

Lemma lsolve_R b r : 0 <= r < n ->
  let u := lsolveF RA lc n b in
  sumr (fun j => LL r j * u j)%R (zr 0 n) = b r.
Proof.
  intros Hr u.
  assert (G : forall m, 0 <= m -> m <= r ->
     lsolveF RA lc m b r = (b r - sumr (fun j => LL r j * u j) (zr 0 m))%R).
  { apply (zr_ind (fun m => m <= r -> lsolveF RA lc m b r = (b r - sumr (fun j => LL r j * u j) (zr 0 m))%R)).
    - intros _. unfold lsolveF. simpl. lra.
    - intros m Hm IH Hmr. rewrite lsolve_succ, IH by lia. rewrite zr_snoc, sumr_app by lia. cbn [sumr].
      rewrite lc_ent by lia. unfold u at 3. rewrite (lsolve_stable b m n) by lia. lra. }
  specialize (G r ltac:(lia) ltac:(lia)).
  rewrite (zr_app 0 r n), sumr_app, (zr_cons r n) by lia. cbn [sumr].
  rewrite (sumr_zero _ (zr (r + 1) n)).
  2:{ intros j Hj. apply in_zr in Hj. rewrite (LL_upper r j) by lia. lra. }
  unfold LL at 2. rewrite Z.eqb_refl. unfold u at 2. rewrite (lsolve_stable b r n) by lia. rewrite G. lra.
Qed.

Lemma ltsolve_succ m b r : 0 <= m ->
  ltsolveF RA lc n (m + 1) b r =
  if r =? n - 1 - m then ltstep RA (lc r) (ltsolveF RA lc n m b) (ltsolveF RA lc n m b r)
  else ltsolveF RA lc n m b r.
Proof. intros Hm. unfold ltsolveF. rewrite zr_snoc, fold_left_app by lia. reflexivity. Qed.

Lemma ltsolve_before b r m : 0 <= m -> m <= n - 1 - r -> ltsolveF RA lc n m b r = b r.
Proof.
  revert m. apply (zr_ind (fun m => m <= n - 1 - r -> ltsolveF RA lc n m b r = b r)).
  - intros _. reflexivity.
  - intros m Hm IH Hr. rewrite ltsolve_succ by lia. destruct (Z.eqb_spec r (n - 1 - m)); [lia|]. apply IH; lia.
Qed.

Lemma ltsolve_after b r m : 0 <= r < n -> n - r <= m -> ltsolveF RA lc n m b r = ltsolveF RA lc n (n - r) b r.
Proof.
  intros Hr. revert m. apply (zr_ind (fun m => ltsolveF RA lc n m b r = ltsolveF RA lc n (n - r) b r)); auto.
  intros m Hm IH. rewrite ltsolve_succ by lia. destruct (Z.eqb_spec r (n - 1 - m)); [lia|]. auto.
Qed.

Lemma ltstep_R l X acc : ltstep RA l X acc = (acc - sumr (fun e => snd e * X (fst e)) l)%R.
Proof. unfold ltstep. cbn [car RA fsub fmul]. apply (fold_sub_all (fun e => (snd e * X (fst e))%R)). Qed.

Lemma ltsolve_R v j : 0 <= j < n ->
  let w := ltsolveF RA lc n n v in
  sumr (fun r => LL r j * w r)%R (zr 0 n) = v j.
Proof.
  intros Hj w.
  assert (E : w j = (v j - sumr (fun e => snd e * w (fst e)) (lc j))%R).
  { unfold w at 1. rewrite (ltsolve_after v j n) by lia.
    replace (n - j) with ((n - 1 - j) + 1) by lia. rewrite ltsolve_succ by lia.
    destruct (Z.eqb_spec j (n - 1 - (n - 1 - j))); [|lia].
    rewrite ltstep_R, ltsolve_before by lia. f_equal. apply sumr_ext. intros [r x] Hin.
    pose proof (lc_lower j r x Hj Hin). simpl. f_equal.
    unfold w. rewrite (ltsolve_after v r n), (ltsolve_after v r (n - 1 - j)) by lia. reflexivity. }
  rewrite (ent_sum (lc j) n w) in E by (intros r x Hin; pose proof (lc_lower j r x Hj Hin); lia).
  assert (E2 : sumr (fun i => ent (lc j) i * w i)%R (zr 0 n) =
               sumr (fun i => (LL i j * w i) - (if i =? j then w i else 0))%R (zr 0 n)).
  { apply sumr_ext. intros i Hi. apply in_zr in Hi. destruct (Z.eqb_spec i j).
    - subst. rewrite lc_ent_low by lia. unfold LL. rewrite Z.eqb_refl. lra.
    - rewrite lc_ent by lia. lra. }
  rewrite E2, sumr_minus in E. rewrite (sumr_delta j w) in E.
  - lra.
  - apply NoDup_zr.
  - apply in_zr. lia.
Qed.

(** Forward, diagonal and backward solve together solve  L D L' w = b. *)
Definition solveF (b : Z -> R) : Z -> R := ltsolveF RA lc n n (dsolveF RA (lsolveF RA lc n b) Dv).

Lemma solve_R b r : 0 <= r < n ->
  sumr (fun k => sumr (fun j => LL r j * Dv j * LL k j) (zr 0 n) * solveF b k)%R (zr 0 n) = b r.
Proof.
  intros Hr. set (w := solveF b). set (u := lsolveF RA lc n b). set (v := dsolveF RA u Dv).
  rewrite (sumr_ext _ (fun k => sumr (fun j => LL r j * Dv j * (LL k j * w k)) (zr 0 n))%R).
  2:{ intros k _. rewrite <- sumr_scal_r. apply sumr_ext. intros; lra. }
  rewrite sumr_swap. rewrite <- (lsolve_R b r Hr). apply sumr_ext. intros j Hj. apply in_zr in Hj.
  rewrite sumr_scal. change (fun k => (LL k j * w k)%R) with (fun r => (LL r j * ltsolveF RA lc n n v r)%R).
  rewrite (ltsolve_R v j Hj). unfold v, dsolveF. rewrite RA_div by (apply Dv_nonzero; auto).
  fold u. field. apply Dv_nonzero; auto.
Qed.

(** The perturbation of the diagonal, in the caller's numbering. *)
Definition Epert (a : Z) : R := (Dv (Qf a) - piv (Qf a))%R.

(** Permute, solve, permute back: x = P' (L D L')^{-1} P b solves (K + diag E) x = b. *)
Lemma perm_solve_R b a : 0 <= a < n ->
  let x := fun a => solveF (fun k => b (Pf k)) (Qf a) in
  (sumr (fun c => ent (col c) a * x c) (zr 0 n) + Epert a * x a)%R = b a.
Proof.
  intros Ha x. pose proof (qf_range _ _ _ HP a Ha) as HQ.
  pose proof (solve_R (fun k => b (Pf k)) (Qf a) HQ) as E. cbv beta in E. rewrite (pf_qf _ _ _ HP a Ha) in E.
  rewrite (sumr_ext _ (fun k => ent (col (Pf k)) a * x (Pf k) +
                       (if k =? Qf a then Epert a * x a else 0))%R) in E.
  2:{ intros k Hk. apply in_zr in Hk. rewrite LDL_entry by auto. rewrite (pf_qf _ _ _ HP a Ha).
      unfold x. rewrite (qf_pf _ _ _ HP k Hk). rewrite Z.eqb_sym. unfold Epert.
      destruct (Z.eqb_spec k (Qf a)); [subst k|]; lra. }
  rewrite sumr_plus in E. rewrite (sumr_delta (Qf a) (fun _ => (Epert a * x a)%R)) in E.
  2:{ apply NoDup_zr. }
  2:{ apply in_zr. auto. }
  rewrite <- E. f_equal.
  apply (sumr_reindex (fun c => (ent (col c) a * x c)%R) Pf (zr 0 n) (zr 0 n)).
  apply NoDup_Permutation.
  - assert (G : forall l, NoDup l -> (forall k, In k l -> 0 <= k < n) -> NoDup (map Pf l)).
    { induction l as [|k l IH]; intros ND HB; simpl; [constructor|]. inversion ND; subst. constructor.
      - intros H. apply in_map_iff in H. destruct H as [k' [Ek Hk']].
        assert (k' = k); [|subst; tauto].
        rewrite <- (qf_pf _ _ _ HP k'), <- (qf_pf _ _ _ HP k), Ek by (apply HB; simpl; auto). reflexivity.
      - apply IH; auto. intros; apply HB; simpl; auto. }
    apply G; [apply NoDup_zr|]. intros k Hk. apply in_zr in Hk. auto.
  - apply NoDup_zr.
  - intros c. rewrite in_map_iff. split.
    + intros [k [<- Hk]]. apply in_zr in Hk. apply in_zr. apply (pf_range _ _ _ HP). auto.
    + intros Hc. apply in_zr in Hc. exists (Qf c). split; [apply (pf_qf _ _ _ HP); auto|].
      apply in_zr. apply (qf_range _ _ _ HP). auto.
Qed.

Lemma Epert_zero a : 0 <= a < n -> (Rabs (piv (Qf a)) > 1 / 100000000000000)%R -> Epert a = 0%R.
Proof.
  intros Ha H. unfold Epert. rewrite Dv_reg by (apply (qf_range _ _ _ HP); auto). rewrite reg_big by auto. lra.
Qed.

Lemma Epert_small a : 0 <= a < n -> (Rabs (Epert a) <= 1 / 10000000 + 1 / 100000000000000)%R.
Proof.
  intros Ha. unfold Epert. rewrite Dv_reg by (apply (qf_range _ _ _ HP); auto). apply reg_close.
Qed.

End Fact.
