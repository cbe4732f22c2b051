(** The two instances of [Safe]: any arithmetic in which every operation is defined (binary64), with no
    condition on s and z; and exact arithmetic with s, z positive. *)
From Coq Require Import ZArith Reals List Lia Lra Bool.
From Verif Require Import Res Arith Lists MSparse Csc SemVec MLdl MSolver LdlSpec LdlNum LdlR LdlFun VecOps Iter.
Import ListNotations.
Open Scope Z_scope.

Lemma Safe_total A : total_arith A -> Safe A (fun _ => True).
Proof.
  intros HT. pose proof HT as [Hd Hs].
  split; intros; auto; try solve [apply Hd | apply Hs].
  - intros x d _. apply Hd.
  - apply div_ok_total; auto.
Qed.

(** ** Exact arithmetic *)

Lemma dv_R x y : y <> 0%R -> dv RA x y = (x / y)%R.
Proof. intros H. unfold dv. rewrite RA_div by auto. reflexivity. Qed.

Lemma sq_R x : (0 <= x)%R -> sq RA x = sqrt x.
Proof. intros H. unfold sq. rewrite RA_sqrt by auto. reflexivity. Qed.

Lemma dot_self_nonneg v k : (0 <= dotF RA v v k)%R.
Proof. rewrite dotF_R. apply sumr_nonneg. intros i _. apply Rle_0_sqr. Qed.

Lemma dot_pos s z m : 1 <= m -> (forall i, 0 <= i < m -> (0 < s i)%R) -> (forall i, 0 <= i < m -> (0 < z i)%R) ->
  (0 < dotF RA s z m)%R.
Proof.
  intros Hm Hs Hz. rewrite dotF_R. apply sumr_pos.
  - rewrite zr_cons by lia. discriminate.
  - intros i Hi. apply in_zr in Hi. apply Rmult_lt_0_compat; auto.
Qed.

(** The ratio test over the first [m] components. *)
Record step_inv (v d : Z -> R) (m : Z) (st : R * bool) : Prop := mkStepInv {
  si_pos : (0 < fst st)%R;
  si_all : forall i, 0 <= i < m -> (d i < 0)%R -> (fst st <= - (v i / d i))%R;
  si_false : snd st = false -> fst st = 10000000000%R;
  si_true : snd st = true -> (fst st < 10000000000)%R /\ exists i, 0 <= i < m /\ (d i < 0)%R /\ fst st = (- (v i / d i))%R
}.

Lemma neg_ratio_pos v d : (0 < v)%R -> (d < 0)%R -> (0 < - (v / d))%R.
Proof.
  intros Hv Hd. unfold Rdiv. rewrite Ropp_mult_distr_r. apply Rmult_lt_0_compat; auto.
  apply Ropp_0_gt_lt_contravar. apply Rinv_lt_0_compat. auto.
Qed.

Lemma stepS_R v d m : 0 <= m -> (forall i, 0 <= i < m -> (0 < v i)%R) -> step_inv v d m (stepS RA v d m).
Proof.
  intros Hm. pattern m. revert m Hm. apply zr_ind.
  - intros _. unfold stepS. rewrite zr_nil by lia. cbn [fold_left].
    split; cbn [fst snd car RA fofZ]; try lra; try discriminate; auto. intros; lia.
  - intros m Hm IH Hv. assert (IH' : step_inv v d m (stepS RA v d m)) by (apply IH; intros; apply Hv; lia). clear IH.
    unfold stepS. rewrite zr_snoc, fold_left_app by lia. cbn [fold_left].
    change (fold_left _ (zr 0 m) _) with (stepS RA v d m).
    destruct IH' as [I1 I2 I3 I4]. pose proof (Hv m ltac:(lia)) as Hvm.
    destruct (stepS RA v d m) as [a fl]. cbn [fst snd] in *.
    unfold ratioF. cbn [car RA flt fopp fst] in *. change (f0 RA) with 0%R.
    destruct (Rltb (d m) 0) eqn:E1.
    + apply Rltb_true in E1. rewrite !dv_R by lra.
      replace (- v m / d m)%R with (- (v m / d m))%R by (field; lra).
      destruct (Rltb (- (v m / d m)) a) eqn:E2.
      * apply Rltb_true in E2. split; cbn [fst snd]; try discriminate.
        -- apply neg_ratio_pos; auto.
        -- intros i Hi Hd. destruct (Z.eq_dec i m) as [->|]; [lra|]. specialize (I2 i ltac:(lia) Hd). lra.
        -- intros _. split.
           ++ destruct fl; [destruct (I4 eq_refl)|rewrite I3 in E2 by auto]; lra.
           ++ exists m. split; [lia|auto].
      * apply Rltb_false in E2. split; auto.
        -- cbn [fst]. intros i Hi Hd. destruct (Z.eq_dec i m) as [->|]; [lra|]. apply I2; auto; lia.
        -- intros E. destruct (I4 E) as [J1 [i [Hi J2]]]. split; auto. exists i. split; [lia|auto].
    + apply Rltb_false in E1. split; auto.
      * cbn [fst]. intros i Hi Hd. destruct (Z.eq_dec i m) as [->|]; [lra|]. apply I2; auto; lia.
      * intros E. destruct (I4 E) as [J1 [i [Hi J2]]]. split; auto. exists i. split; [lia|auto].
Qed.

(** What the step length is: the largest step that keeps v + a d >= 0 when some ratio is below 10^10,
    and one otherwise. *)
Lemma stepF_R v d m : 0 <= m -> (forall i, 0 <= i < m -> (0 < v i)%R) ->
  (0 < stepF RA v d m)%R /\ (forall i, 0 <= i < m -> (d i < 0)%R -> (stepF RA v d m <= - (v i / d i))%R) /\
  ((stepF RA v d m < 10000000000)%R /\
     (stepF RA v d m = 1%R \/ exists i, 0 <= i < m /\ (d i < 0)%R /\ stepF RA v d m = (- (v i / d i))%R)).
Proof.
  intros Hm Hv. pose proof (stepS_R v d m Hm Hv) as [I1 I2 I3 I4]. unfold stepF.
  destruct (stepS RA v d m) as [a fl]. cbn [fst snd car RA] in *. destruct fl.
  - destruct (I4 eq_refl). auto.
  - rewrite I3 in I1, I2 by auto. change (f1 RA) with 1%R. cbn [car RA] in *. split; [lra|]. split; [|lra].
    intros i Hi Hd. specialize (I2 i Hi Hd). lra.
Qed.

Lemma MIN_R a b : MIN RA a b = Rmin a b.
Proof.
  unfold MIN, Rmin. cbn [RA flt]. destruct (Rltb a b) eqn:E.
  - apply Rltb_true in E. destruct (Rle_dec a b); lra.
  - apply Rltb_false in E. destruct (Rle_dec a b); lra.
Qed.

Lemma MAX_R a b : MAX RA a b = Rmax a b.
Proof.
  unfold MAX, Rmax. cbn [RA flt]. destruct (Rltb b a) eqn:E.
  - apply Rltb_true in E. destruct (Rle_dec a b); lra.
  - apply Rltb_false in E. destruct (Rle_dec a b); lra.
Qed.

Definition damped (a : R) : R := MIN RA (fmul RA (fdec RA 99 100) a) (f1 RA).

Lemma damped_R a : damped a = Rmin (99 / 100 * a) 1.
Proof. apply MIN_R. Qed.

Lemma damped_range a : (0 < a)%R -> (0 < damped a <= 1)%R /\ (damped a <= 99 / 100 * a)%R.
Proof.
  intros H. rewrite damped_R. split; [split|].
  - apply Rmin_glb_lt; lra.
  - apply Rmin_r.
  - apply Rmin_l.
Qed.

Lemma step_interior v d m i : (forall i, 0 <= i < m -> (0 < v i)%R) -> 0 <= i < m ->
  (0 < v i + d i * damped (stepF RA v d m))%R.
Proof.
  intros Hv Hi. destruct (stepF_R v d m ltac:(lia) Hv) as [H1 [H2 _]].
  destruct (damped_range _ H1) as [[D1 D2] D3]. pose proof (Hv i Hi) as Hvi.
  destruct (Rlt_dec (d i) 0) as [Hd|Hd].
  - specialize (H2 i Hi Hd).
    assert (Hlt : (damped (stepF RA v d m) < - (v i / d i))%R) by (cbn [car RA] in *; lra).
    apply (Rmult_lt_gt_compat_neg_l (d i)) in Hlt; auto.
    replace (d i * - (v i / d i))%R with (- v i)%R in Hlt by (field; lra). lra.
  - assert (0 <= d i * damped (stepF RA v d m))%R by (apply Rmult_le_pos; lra). lra.
Qed.

Lemma minmaxF_R v m : 1 <= m ->
  (forall i, 0 <= i < m -> (fst (minmaxF RA v m) <= v i <= snd (minmaxF RA v m))%R) /\
  (exists i, 0 <= i < m /\ fst (minmaxF RA v m) = v i) /\ (exists i, 0 <= i < m /\ snd (minmaxF RA v m) = v i).
Proof.
  intros Hm. pattern m. revert m Hm. apply zr_ind.
  - unfold minmaxF. rewrite zr_nil by lia. cbn. split; [|split; exists 0; split; auto; lia].
    intros i Hi. replace i with 0 by lia. lra.
  - intros m Hm [IH [[a [Ha Ea]] [b [Hb Eb]]]]. unfold minmaxF. rewrite zr_snoc, fold_left_app by lia. cbn [fold_left].
    change (fold_left _ (zr 1 m) _) with (minmaxF RA v m). destruct (minmaxF RA v m) as [mn mx].
    cbn [fst snd car RA flt] in *.
    destruct (Rltb (v m) mn) eqn:E1; destruct (Rltb mx (v m)) eqn:E2;
      rewrite ?Rltb_true, ?Rltb_false in E1; rewrite ?Rltb_true, ?Rltb_false in E2; (split; [|split]).
    all: try (intros i Hi; destruct (Z.eq_dec i m) as [->|]; [try lra|specialize (IH i ltac:(lia)); try lra]).
    all: try (pose proof (IH 0 ltac:(lia)); lra).
    all: try (exists m; split; [lia|reflexivity]).
    all: try (exists a; split; [lia|exact Ea]).
    all: try (exists b; split; [lia|exact Eb]).
Qed.

Definition Rpos (r : R) : Prop := (0 < r)%R.

Lemma Safe_R : Safe RA Rpos.
Proof.
  split; unfold Rpos.
  - intros x z Hz. exists (x / z)%R. apply RA_div. lra.
  - intros x m Hm. eexists. apply RA_div. apply not_0_IZR. lia.
  - intros s z Hs Hz. eexists. apply RA_sqrt. apply Rlt_le, Rmult_lt_0_compat; auto.
  - intros v k. eexists. apply RA_sqrt. apply dot_self_nonneg.
  - intros x d Hd. apply Rltb_true in Hd. change (f0 RA) with 0%R in Hd. eexists. apply RA_div. lra.
  - intros x s z m Hm Hs Hz. eexists. apply RA_div. pose proof (dot_pos s z m Hm Hs Hz). cbn [car RA] in *. lra.
  - eexists. apply RA_sqrt. simpl. lra.
  - intros x. eexists. apply RA_div. rewrite sq_R by (simpl; lra). apply Rgt_not_eq. apply sqrt_lt_R0. simpl. lra.
  - apply div_ok_R.
  - intros v d m i Hv Hi. apply (step_interior v d m i Hv Hi).
  - intros v m i Hi. cbv zeta. cbn [car RA flt fopp fadd]. change (f0 RA) with 0%R. change (f1 RA) with 1%R.
    destruct (minmaxF_R v m ltac:(lia)) as [H _]. specialize (H i Hi). cbn [car RA] in *.
    destruct (Rltb _ 0) eqn:E; [apply Rltb_true in E|apply Rltb_false in E]; lra.
  - intros v m i Hi. cbv zeta. cbn [car RA flt fopp fadd]. change (f0 RA) with 0%R. change (f1 RA) with 1%R.
    destruct (minmaxF_R v m ltac:(lia)) as [H _]. specialize (H i Hi). cbn [car RA] in *.
    destruct (Rltb _ 0) eqn:E; [apply Rltb_true in E|apply Rltb_false in E]; lra.
Qed.
