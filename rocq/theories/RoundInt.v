(** The step to the boundary and the shift of the starting point, in binary64: the sign of the slacks. *)
From Coq Require Import ZArith Reals List Lia Lra Bool.
From Flocq Require Import Core BinarySingleNaN Relative Plus_error.
From Verif Require Import Res Partial Arith Lists MSparse Csc SemVec LdlNum LdlFun MSolver VecOps QpSpec Round RoundLdl.
Import ListNotations.
Open Scope R_scope.

(** ** Rounding is monotone *)

#[local] Instance vexp : Valid_exp (SpecFloat.fexp 53 1024).
Proof. apply (@fexp_correct 53 1024 prec64). Qed.

Lemma rnd_le x y : x <= y -> rnd x <= rnd y.
Proof. intros H. apply round_le; auto; try typeclasses eauto. Qed.
Lemma rnd_B2R (z : b64) : rnd (B2R z) = B2R z.
Proof. apply round_generic; [typeclasses eauto|apply fmt]. Qed.
Lemma rnd_opp x : rnd (- x) = - rnd x.
Proof. apply (round_NE_opp radix2 (SpecFloat.fexp 53 1024) x). Qed.
Lemma rnd_0 : rnd 0 = 0.
Proof. apply round_0. typeclasses eauto. Qed.

Lemma add_rnd (x y : b64) : is_finite (fadd FA x y) = true -> B2R (fadd FA x y) = rnd (B2R x + B2R y).
Proof.
  intros H. destruct (add_fin x y H) as [Fx Fy]. pose proof (Bplus_correct 53 1024 prec64 emax64 mode_NE x y Fx Fy) as C.
  destruct (Rlt_bool _ _); destruct C as [C _]; [exact C|]. apply overflow_nf in C. cbn [fadd FA] in H. congruence.
Qed.
Lemma mul_rnd (x y : b64) : is_finite (fmul FA x y) = true -> B2R (fmul FA x y) = rnd (B2R x * B2R y).
Proof.
  intros H. pose proof (Bmult_correct 53 1024 prec64 emax64 mode_NE x y) as C.
  destruct (Rlt_bool _ _); [exact (proj1 C)|]. apply overflow_nf in C. cbn [fmul FA] in H. congruence.
Qed.
Lemma mul_small (x y : b64) (z : b64) : is_finite x = true -> is_finite y = true -> Rabs (rnd (B2R x * B2R y)) <= Rabs (B2R z) ->
  is_finite (fmul FA x y) = true.
Proof.
  intros Fx Fy H. pose proof (Bmult_correct 53 1024 prec64 emax64 mode_NE x y) as C.
  rewrite Rlt_bool_true in C.
  - destruct C as [_ [C _]]. cbn [fmul FA]. rewrite C, Fx, Fy. reflexivity.
  - eapply Rle_lt_trans; [exact H|]. apply abs_B2R_lt_emax.
Qed.

Lemma lt_R (x y : b64) : is_finite x = true -> is_finite y = true -> flt FA x y = true <-> B2R x < B2R y.
Proof.
  intros Fx Fy. cbn [flt FA]. rewrite Bltb_correct by auto. case Rlt_bool_spec; split; intros; auto; try discriminate; lra.
Qed.
Lemma lt_R_false (x y : b64) : is_finite x = true -> is_finite y = true -> flt FA x y = false -> B2R y <= B2R x.
Proof. intros Fx Fy H. apply Rnot_lt_le. intros L. apply (lt_R x y Fx Fy) in L. congruence. Qed.

Lemma opp_R (x : b64) : B2R (fopp FA x) = - B2R x.
Proof. apply B2R_Bopp. Qed.
Lemma opp_fin (x : b64) : is_finite (fopp FA x) = is_finite x.
Proof. apply is_finite_Bopp. Qed.

(** ** The ratio test *)

(** A quotient of a nonnegative number by a negative one, with the sign changed. *)
Lemma quot_cases (v d : b64) : is_finite v = true -> 0 <= B2R v -> is_finite d = true -> B2R d < 0 ->
  (is_finite (b64_div (fopp FA v) d) = true /\ B2R (b64_div (fopp FA v) d) = rnd (B2R v / - B2R d) /\
   is_finite (fopp FA (b64_div v d)) = true /\ B2R (fopp FA (b64_div v d)) = rnd (B2R v / - B2R d)) \/
  (b64_div (fopp FA v) d = B754_infinity false /\ bpow radix2 1024 <= rnd (B2R v / - B2R d)).
Proof.
  intros Fv Hv Fd Hd. assert (Nd : B2R d <> 0) by lra.
  pose proof (Bdiv_correct 53 1024 prec64 emax64 mode_NE (fopp FA v) d Nd) as C1.
  pose proof (Bdiv_correct 53 1024 prec64 emax64 mode_NE v d Nd) as C2.
  change (@Bdiv 53 1024 prec64 emax64 mode_NE (fopp FA v) d) with (b64_div (fopp FA v) d) in C1.
  change (@Bdiv 53 1024 prec64 emax64 mode_NE v d) with (b64_div v d) in C2.
  rewrite opp_R in C1. replace (- B2R v / B2R d) with (B2R v / - B2R d) in C1 by (field; lra).
  replace (B2R v / B2R d) with (- (B2R v / - B2R d)) in C2 by (field; lra). rewrite rnd_opp, Rabs_Ropp in C2.
  assert (Hr : 0 <= rnd (B2R v / - B2R d)).
  { rewrite <- rnd_0. apply rnd_le. apply Rmult_le_pos; auto. apply Rlt_le, Rinv_0_lt_compat. lra. }
  revert C1 C2. case Rlt_bool_spec; intros L C1 C2.
  - left. destruct C1 as [C1 [F1 _]], C2 as [C2 [F2 _]]. rewrite opp_fin, opp_R, F1, F2, C1, C2, opp_fin. repeat split; auto. ring.
  - right. rewrite Rabs_pos_eq in L by auto. split; auto.
    assert (Sv : Bsign (fopp FA v) = true).
    { destruct v as [s|s| |s mx ex Hx]; try discriminate Fv.
      - exfalso. cbn [B2R] in L. replace (0 / - B2R d) with 0 in L by (field; lra). rewrite rnd_0 in L. pose proof (bpow_gt_0 radix2 1024). lra.
      - cbn. destruct s; auto. exfalso. cbn in Hv. unfold F2R in Hv. cbn in Hv. pose proof (bpow_gt_0 radix2 ex).
        assert (IZR (Z.neg mx) < 0) by (apply IZR_lt; lia). nra. }
    assert (Sd : Bsign d = true).
    { destruct d as [s|s| |s mx ex Hx]; try discriminate Fd; [cbn in Hd; lra|].
      cbn. destruct s; auto. exfalso. cbn in Hd. unfold F2R in Hd. cbn in Hd. pose proof (bpow_gt_0 radix2 ex).
      assert (0 < IZR (Z.pos mx)) by (apply IZR_lt; lia). nra. }
    rewrite Sv, Sd in C1. cbn [xorb] in C1. apply SF_pinf. exact C1.
Qed.

Record step_ok (v d : Z -> b64) (k : Z) (st : b64 * bool) : Prop := mkStepOk {
  so_fin : is_finite (fst st) = true;
  so_pos : 0 <= B2R (fst st) <= 10000000000;
  so_unset : snd st = false -> B2R (fst st) = 10000000000;
  so_le : forall i, (0 <= i < k)%Z -> is_finite (d i) = true -> B2R (d i) < 0 -> B2R (fst st) <= rnd (B2R (v i) / - B2R (d i))
}.

Lemma big_lt : 10000000000 < bpow radix2 1024.
Proof. apply Rlt_trans with (bpow radix2 40); [|apply bpow_lt; lia]. change (bpow radix2 40) with (IZR (2 ^ 40)). apply IZR_lt. reflexivity. Qed.

Lemma div_minus_inf (v : b64) : is_finite v = true -> exists s, b64_div v (B754_infinity true) = B754_zero s.
Proof. destruct v as [s|s| |s mx ex Hx]; intros F; try discriminate F; eexists; reflexivity. Qed.

Lemma ratio_ok v d k st : (0 <= k)%Z -> is_finite (v k) = true -> 0 <= B2R (v k) -> step_ok v d k st -> step_ok v d (k + 1) (ratioF FA (v k) (d k) st).
Proof.
  intros Hk0 Fv Hv [S1 S2 S3 S4]. unfold ratioF. repeat change (dv FA ?a ?b) with (b64_div a b).
  destruct (flt FA (d k) (f0 FA)) eqn:Ed.
  2:{ split; auto. intros i Hi Fi Hn. destruct (Z.eq_dec i k) as [->|Ne]; [|apply S4; auto; lia].
      apply (lt_R_false (d k) (f0 FA)) in Ed; auto. rewrite B2R_zero in Ed. lra. }
  assert (Cd : is_finite (d k) = true /\ B2R (d k) < 0 \/ d k = B754_infinity true).
  { destruct (is_finite (d k)) eqn:Fd.
    - left. split; auto. apply (lt_R (d k) (f0 FA)); auto.
    - right. destruct (d k) as [s|[|]| |s mx ex Hx]; try discriminate Fd; try discriminate Ed; reflexivity. }
  destruct Cd as [[Fd Hd]|Hd].
  - destruct (quot_cases (v k) (d k) Fv Hv Fd Hd) as [[A1 [A2 [A3 A4]]]|[A1 A2]].
    + match goal with |- context [if ?c then _ else _] => destruct c eqn:E end.
      * apply (lt_R _ _ A1 S1) in E. rewrite A2 in E. cbn [fst snd]. split; cbn [fst snd]; [exact A3| |discriminate|].
        { rewrite A4. split; [|lra]. rewrite <- rnd_0. apply rnd_le. apply Rmult_le_pos; auto. apply Rlt_le, Rinv_0_lt_compat. lra. }
        intros i Hi Fi Hn. rewrite A4. destruct (Z.eq_dec i k) as [->|Ne]; [lra|]. specialize (S4 i ltac:(lia) Fi Hn). lra.
      * apply (lt_R_false _ _ A1 S1) in E. rewrite A2 in E. split; auto.
        intros i Hi Fi Hn. destruct (Z.eq_dec i k) as [->|Ne]; [lra|]. apply S4; auto; lia.
    + match goal with |- context [if ?c then _ else _] => replace c with false end.
      2:{ change (false = flt FA (b64_div (fopp FA (v k)) (d k)) (fst st)). rewrite A1. destruct (fst st) as [s|s| |[] mx ex Hx]; try discriminate S1; reflexivity. }
      split; auto. intros i Hi Fi Hn. destruct (Z.eq_dec i k) as [->|Ne]; [|apply S4; auto; lia]. pose proof big_lt. lra.
  - rewrite Hd in *. destruct (div_minus_inf (fopp FA (v k)) ltac:(rewrite opp_fin; auto)) as [s1 E1]. destruct (div_minus_inf (v k) Fv) as [s2 E2]. rewrite E1, E2.
    match goal with |- context [if ?c then _ else _] => destruct c eqn:E end.
    + cbn [fst snd fopp FA Bopp]. split; cbn [fst snd B2R]; [reflexivity|lra|discriminate|].
      intros i Hi Fi Hn. destruct (Z.eq_dec i k) as [->|Ne]; [rewrite Hd in Fi; discriminate Fi|]. specialize (S4 i ltac:(lia) Fi Hn). lra.
    + split; auto. intros i Hi Fi Hn. destruct (Z.eq_dec i k) as [->|Ne]; [rewrite Hd in Fi; discriminate Fi|]. apply S4; auto; lia.
Qed.

Lemma steps_ok v d (m : Z) : (0 <= m)%Z -> (forall i, (0 <= i < m)%Z -> is_finite (v i) = true /\ 0 <= B2R (v i)) -> step_ok v d m (stepS FA v d m).
Proof.
  intros Hm. unfold stepS. rewrite <- (Z2Nat.id m Hm). generalize (Z.to_nat m) as k. induction k; intros H.
  - rewrite zr_nil by lia. cbn [fold_left]. destruct (ofZ_val 10000000000 ltac:(lia)) as [F1 V1].
    split; cbn [fst snd]; [exact F1|change (fofZ FA) with b64_ofZ; rewrite V1; lra|intros _; exact V1|intros i Hi; lia].
  - rewrite Nat2Z.inj_succ. unfold Z.succ. rewrite zr_snoc by lia. rewrite fold_left_app. cbn [fold_left].
    destruct (H (Z.of_nat k) ltac:(lia)) as [F1 P1]. apply ratio_ok; auto; [lia|]. apply IHk. intros i Hi. apply H. lia.
Qed.

Definition reach (v d : Z -> b64) (m : Z) : b64 := MIN FA (fmul FA (fdec FA 99 100) (stepF FA v d m)) (f1 FA).

Definition c99 : R := B2R (fdec FA 99 100).
Lemma c99_val : is_finite (fdec FA 99 100) = true /\ 0 <= c99 <= 9901 / 10000.
Proof.
  unfold c99. split; [vm_compute; reflexivity|]. cbn [fdec FA].
  destruct (ofZ_val 99 ltac:(lia)) as [F1 V1]. destruct (ofZ_val 100 ltac:(lia)) as [F2 V2].
  destruct (div_val (b64_ofZ 99) (b64_ofZ 100) ltac:(vm_compute; reflexivity) F2 ltac:(rewrite V2; lra)) as [_ [e [n [He [Hn ->]]]]]. rewrite V1, V2.
  apply Rabs_le_inv in He, Hn. pose proof uu_le. pose proof eta_le. lra.
Qed.

(** The step length is at most 0.99 times every ratio, up to rounding. *)
Lemma reach_ok v d (m : Z) : (0 <= m)%Z -> (forall i, (0 <= i < m)%Z -> is_finite (v i) = true /\ 0 <= B2R (v i)) ->
  is_finite (reach v d m) = true /\ 0 <= B2R (reach v d m) <= 1 /\
  forall i, (0 <= i < m)%Z -> is_finite (d i) = true -> B2R (d i) < 0 -> B2R (reach v d m) <= rnd (c99 * rnd (B2R (v i) / - B2R (d i))).
Proof.
  intros Hm H. destruct (steps_ok v d m Hm H) as [S1 S2 S3 S4]. destruct one_val as [F1 V1]. destruct c99_val as [Fc Vc].
  assert (T : is_finite (stepF FA v d m) = true /\ 0 <= B2R (stepF FA v d m) /\
     forall i, (0 <= i < m)%Z -> is_finite (d i) = true -> B2R (d i) < 0 -> B2R (stepF FA v d m) <= rnd (B2R (v i) / - B2R (d i))).
  { unfold stepF. destruct (snd (stepS FA v d m)) eqn:E; [repeat split; auto; apply S2|].
    rewrite V1. split; [exact F1|]. split; [lra|]. intros i Hi Fi Hn. specialize (S4 i Hi Fi Hn). specialize (S3 E). lra. }
  destruct T as [T1 [T2 T3]]. unfold reach. set (st := stepF FA v d m) in *.
  assert (Pm : 0 <= rnd (c99 * B2R st) <= B2R st).
  { split; [rewrite <- rnd_0; apply rnd_le; nra|]. rewrite <- (rnd_B2R st) at 2. apply rnd_le. nra. }
  assert (Fm : is_finite (fmul FA (fdec FA 99 100) st) = true).
  { apply (mul_small _ _ st); auto. fold c99. rewrite !Rabs_pos_eq; lra. }
  pose proof (mul_rnd _ _ Fm) as Em. fold c99 in Em.
  assert (G : forall i, (0 <= i < m)%Z -> is_finite (d i) = true -> B2R (d i) < 0 -> rnd (c99 * B2R st) <= rnd (c99 * rnd (B2R (v i) / - B2R (d i)))).
  { intros i Hi Fi Hn. apply rnd_le. apply Rmult_le_compat_l; [lra|]. auto. }
  unfold MIN. destruct (flt FA _ (f1 FA)) eqn:E.
  - apply (lt_R _ _ Fm F1) in E. rewrite V1 in E. rewrite Em in *. repeat split; auto; lra.
  - apply (lt_R_false _ _ Fm F1) in E. rewrite V1, Em in *. split; [exact F1|]. split; [lra|]. intros i Hi Fi Hn. specialize (G i Hi Fi Hn). lra.
Qed.

(** ** The update *)
Lemma tiny_eta (a : R) : bpow radix2 (-1000) <= a -> eta <= a / 1000000.
Proof.
  intros H. unfold eta. replace (-1075)%Z with (-75 + -1000)%Z by lia. rewrite bpow_plus. pose proof (bpow_gt_0 radix2 (-1000)).
  assert (bpow radix2 (-75) <= / 1000000).
  { change (bpow radix2 (-75)) with (/ IZR (2 ^ 75)). apply Rinv_le; [lra|]. apply IZR_le. lia. }
  nra.
Qed.

(** The real-number core: a length at most 0.99 times the ratio, up to rounding, moves at most 0.991 of the way to the boundary. *)
Lemma move_le (a v e : R) : 0 <= v -> 0 < e -> bpow radix2 (-1000) <= a -> a <= rnd (c99 * rnd (v / e)) -> a * e <= 991 / 1000 * v.
Proof.
  intros Hv He Ha Hle. destruct c99_val as [_ Vc]. pose proof (tiny_eta a Ha) as Te. pose proof uu_le as Hu. pose proof uu_pos as Hu0.
  assert (Ha0 : 0 < a) by (pose proof (bpow_gt_0 radix2 (-1000)); lra).
  set (x := v / e) in *. assert (Hx : 0 <= x) by (unfold x; apply Rmult_le_pos; auto; apply Rlt_le, Rinv_0_lt_compat; auto).
  destruct (rnd_any x) as [e1 [n1 [He1 [Hn1 E1]]]]. destruct (rnd_any (c99 * rnd x)) as [e2 [n2 [He2 [Hn2 E2]]]].
  apply Rabs_le_inv in He1, Hn1, He2, Hn2. set (r := rnd x) in *.
  assert (Hr : 0 <= r) by (unfold r; rewrite <- rnd_0; apply rnd_le; exact Hx).
  rewrite E2 in Hle.
  assert (B1 : r <= x * (1 + / 1000000) + a / 1000000) by (rewrite E1; nra).
  assert (B2 : a <= c99 * r * (1 + / 1000000) + a / 1000000) by nra.
  assert (B3 : c99 * r <= 9901 / 10000 * r) by nra.
  assert (B4 : a <= 991 / 1000 * x) by lra.
  apply Rmult_le_compat_r with (r := e) in B4; [|lra]. replace (991 / 1000 * x * e) with (991 / 1000 * v) in B4 by (unfold x; field; lra). exact B4.
Qed.

Definition calm_length (a : b64) : Prop := B2R a = 0 \/ bpow radix2 (-1000) <= B2R a.

Lemma update_ok v d (m : Z) i : (0 <= m)%Z -> (forall i, (0 <= i < m)%Z -> is_finite (v i) = true /\ 0 <= B2R (v i)) -> (0 <= i < m)%Z ->
  calm_length (reach v d m) -> is_finite (fadd FA (v i) (fmul FA (d i) (reach v d m))) = true ->
  0 <= B2R (fadd FA (v i) (fmul FA (d i) (reach v d m))) /\
  (bpow radix2 (-1000) <= B2R (v i) -> B2R (v i) / 128 <= B2R (fadd FA (v i) (fmul FA (d i) (reach v d m)))).
Proof.
  intros Hm H Hi Hc F. destruct (reach_ok v d m Hm H) as [R1 [R2 R3]]. destruct (H i Hi) as [Fv Pv].
  destruct (add_fin _ _ F) as [_ F2]. destruct (mul_fin _ _ F2) as [Fd _]. set (a := reach v d m) in *.
  pose proof (add_rnd _ _ F) as E. rewrite (mul_rnd _ _ F2), (Rmult_comm (B2R (d i))) in E.
  assert (Up : B2R (v i) <= B2R (fadd FA (v i) (fmul FA (d i) a)) \/ (B2R (d i) < 0 /\ bpow radix2 (-1000) <= B2R a)).
  { destruct (Rle_or_lt 0 (B2R (d i))) as [Hd|Hd].
    - left. rewrite E. rewrite <- (rnd_B2R (v i)) at 1. apply rnd_le. assert (0 <= rnd (B2R a * B2R (d i))) by (rewrite <- rnd_0; apply rnd_le; apply Rmult_le_pos; lra). lra.
    - destruct Hc as [Hc|Hc]; [left|right; auto]. rewrite E, Hc, Rmult_0_l, rnd_0, Rplus_0_r, rnd_B2R. lra. }
  destruct Up as [Up|[Hd Ha]]; [split; intros; lra|].
  pose proof (move_le (B2R a) (B2R (v i)) (- B2R (d i)) Pv ltac:(lra) Ha (R3 i Hi Fd Hd)) as M.
  assert (W : rnd (B2R a * B2R (d i)) = - rnd (B2R a * - B2R (d i))) by (rewrite <- rnd_opp; f_equal; ring).
  assert (Wv : rnd (B2R a * - B2R (d i)) <= B2R (v i)) by (rewrite <- (rnd_B2R (v i)); apply rnd_le; lra).
  split.
  - rewrite E. rewrite <- rnd_0. apply rnd_le. lra.
  - intros Hv. pose proof (tiny_eta _ Hv) as Te. pose proof uu_le as Hu. pose proof uu_pos as Hu0.
    destruct (rnd_any (B2R a * - B2R (d i))) as [e1 [n1 [He1 [Hn1 E1]]]]. apply Rabs_le_inv in He1, Hn1.
    assert (M0 : 0 <= B2R a * - B2R (d i)) by (apply Rmult_le_pos; lra).
    assert (B1 : rnd (B2R a * - B2R (d i)) <= 9911 / 10000 * B2R (v i)) by (rewrite E1; nra).
    destruct (add_val _ _ F) as [e2 [He2 E2]]. apply Rabs_le_inv in He2. rewrite E2, (mul_rnd _ _ F2), (Rmult_comm (B2R (d i))), W. nra.
Qed.

(** ** The starting point *)

Lemma min_cases (z : Z -> b64) (m : Z) : (1 <= m)%Z ->
  let mn := fst (minmaxF FA z m) in
  (is_finite mn = true /\ forall j, (0 <= j < m)%Z -> is_finite (z j) = true -> B2R mn <= B2R (z j)) \/
  (mn = B754_infinity false /\ forall j, (0 <= j < m)%Z -> is_finite (z j) = false) \/ mn = B754_infinity true \/ mn = B754_nan.
Proof.
  intros Hm. cbv zeta. replace m with (Z.of_nat (Z.to_nat (m - 1)) + 1)%Z by lia. generalize (Z.to_nat (m - 1)) as k. clear m Hm.
  unfold minmaxF. induction k.
  - rewrite zr_nil by lia. cbn [fold_left fst]. destruct (is_finite (z 0%Z)) eqn:F.
    + left. split; auto. intros j Hj _. replace j with 0%Z by lia. lra.
    + destruct (z 0%Z) as [s|[|]| |s mx ex Hx] eqn:E; try discriminate F; auto; right; left; split; auto; intros j Hj; replace j with 0%Z by lia; rewrite E; reflexivity.
  - rewrite Nat2Z.inj_succ. unfold Z.succ. rewrite zr_snoc by lia. rewrite fold_left_app. cbn [fold_left fst].
    set (mn := fst (fold_left _ _ _)) in *. set (k1 := (Z.of_nat k + 1)%Z) in *.
    destruct IHk as [[F1 H1]|[[E1 H1]|[E1|E1]]].
    + destruct (flt FA (z k1) mn) eqn:L.
      * destruct (is_finite (z k1)) eqn:Fz.
        { left. split; auto. apply (lt_R _ _ Fz F1) in L. intros j Hj Fj. destruct (Z.eq_dec j k1) as [->|Ne]; [lra|]. specialize (H1 j ltac:(unfold k1 in *; lia) Fj). lra. }
        right. right. destruct (z k1) as [s|[|]| |s mx ex Hx]; try discriminate Fz; auto. exfalso. destruct mn as [s|s| |[] mx ex Hx]; try discriminate F1; discriminate L.
      * left. split; auto. intros j Hj Fj. destruct (Z.eq_dec j k1) as [->|Ne]; [apply (lt_R_false _ _ Fj F1) in L; lra|]. apply H1; auto. unfold k1 in *. lia.
    + rewrite E1. destruct (flt FA (z k1) (B754_infinity false)) eqn:L.
      * destruct (is_finite (z k1)) eqn:Fz.
        { left. split; auto. intros j Hj Fj. destruct (Z.eq_dec j k1) as [->|Ne]; [lra|]. rewrite H1 in Fj by (unfold k1 in *; lia). discriminate Fj. }
        right. right. destruct (z k1) as [s|[|]| |s mx ex Hx]; try discriminate Fz; auto. discriminate L.
      * right. left. split; auto. intros j Hj. destruct (Z.eq_dec j k1) as [->|Ne]; [|apply H1; unfold k1 in *; lia].
        destruct (z k1) as [s|[|]| |[] mx ex Hx]; try reflexivity; discriminate L.
    + rewrite E1. replace (flt FA (z k1) (B754_infinity true)) with false; auto. destruct (z k1) as [s|[|]| |[] mx ex Hx]; reflexivity.
    + rewrite E1. replace (flt FA (z k1) B754_nan) with false; auto. destruct (z k1) as [s|[|]| |[] mx ex Hx]; reflexivity.
Qed.

Lemma max_cases (z : Z -> b64) (m : Z) : (1 <= m)%Z ->
  let mx := snd (minmaxF FA z m) in
  (is_finite mx = true /\ forall j, (0 <= j < m)%Z -> is_finite (z j) = true -> B2R (z j) <= B2R mx) \/
  (mx = B754_infinity true /\ forall j, (0 <= j < m)%Z -> is_finite (z j) = false) \/ mx = B754_infinity false \/ mx = B754_nan.
Proof.
  intros Hm. cbv zeta. replace m with (Z.of_nat (Z.to_nat (m - 1)) + 1)%Z by lia. generalize (Z.to_nat (m - 1)) as k. clear m Hm.
  unfold minmaxF. induction k.
  - rewrite zr_nil by lia. cbn [fold_left snd]. destruct (is_finite (z 0%Z)) eqn:F.
    + left. split; auto. intros j Hj _. replace j with 0%Z by lia. lra.
    + destruct (z 0%Z) as [s|[|]| |s mx ex Hx] eqn:E; try discriminate F; auto; right; left; split; auto; intros j Hj; replace j with 0%Z by lia; rewrite E; reflexivity.
  - rewrite Nat2Z.inj_succ. unfold Z.succ. rewrite zr_snoc by lia. rewrite fold_left_app. cbn [fold_left snd].
    set (mn := snd (fold_left _ _ _)) in *. set (k1 := (Z.of_nat k + 1)%Z) in *.
    destruct IHk as [[F1 H1]|[[E1 H1]|[E1|E1]]].
    + destruct (flt FA mn (z k1)) eqn:L.
      * destruct (is_finite (z k1)) eqn:Fz.
        { left. split; auto. apply (lt_R _ _ F1 Fz) in L. intros j Hj Fj. destruct (Z.eq_dec j k1) as [->|Ne]; [lra|]. specialize (H1 j ltac:(unfold k1 in *; lia) Fj). lra. }
        right. right. destruct (z k1) as [s|[|]| |s mx ex Hx]; try discriminate Fz; auto. exfalso. destruct mn as [s|s| |[] mx ex Hx]; try discriminate F1; discriminate L.
      * left. split; auto. intros j Hj Fj. destruct (Z.eq_dec j k1) as [->|Ne]; [apply (lt_R_false _ _ F1 Fj) in L; lra|]. apply H1; auto. unfold k1 in *. lia.
    + rewrite E1. destruct (flt FA (B754_infinity true) (z k1)) eqn:L.
      * destruct (is_finite (z k1)) eqn:Fz.
        { left. split; auto. intros j Hj Fj. destruct (Z.eq_dec j k1) as [->|Ne]; [lra|]. rewrite H1 in Fj by (unfold k1 in *; lia). discriminate Fj. }
        right. right. destruct (z k1) as [s|[|]| |s mx ex Hx]; try discriminate Fz; auto. discriminate L.
      * right. left. split; auto. intros j Hj. destruct (Z.eq_dec j k1) as [->|Ne]; [|apply H1; unfold k1 in *; lia].
        destruct (z k1) as [s|[|]| |[] mx ex Hx]; try reflexivity; discriminate L.
    + rewrite E1. replace (flt FA (B754_infinity false) (z k1)) with false; auto. destruct (z k1) as [s|[|]| |[] mx ex Hx]; reflexivity.
    + rewrite E1. replace (flt FA B754_nan (z k1)) with false; auto.
Qed.

(** Adding 1 + a to a number no smaller than -a. *)
Lemma shift_ok (x a : b64) : is_finite (fadd FA x (fadd FA (f1 FA) a)) = true -> - B2R a <= B2R x -> 0 <= B2R (fadd FA x (fadd FA (f1 FA) a)).
Proof.
  intros F H. destruct (add_fin _ _ F) as [Fx F2]. rewrite (add_rnd _ _ F), (add_rnd _ _ F2). destruct one_val as [_ V1]. rewrite V1.
  rewrite <- rnd_0. apply rnd_le. assert (B2R a <= rnd (1 + B2R a)) by (rewrite <- (rnd_B2R a) at 1; apply rnd_le; lra). lra.
Qed.

Lemma start_s v (m : Z) i : (1 <= m)%Z -> (0 <= i < m)%Z -> 
  let ap := fopp FA (fst (minmaxF FA v m)) in
  let s := if flt FA ap (f0 FA) then v i else fadd FA (v i) (fadd FA (f1 FA) ap) in
  is_finite s = true -> 0 <= B2R s.
Proof.
  intros Hm Hi. cbv zeta. pose proof (min_cases v m Hm) as C. cbv zeta in C. set (mn := fst (minmaxF FA v m)) in *.
  destruct (flt FA (fopp FA mn) (f0 FA)) eqn:L; intros F.
  - destruct C as [[F1 H1]|[[E1 H1]|[E1|E1]]].
    + apply (lt_R (fopp FA mn) (f0 FA)) in L; [|rewrite opp_fin; auto|reflexivity]. rewrite opp_R, B2R_zero in L. specialize (H1 i Hi F). lra.
    + rewrite H1 in F by auto. discriminate F.
    + rewrite E1 in L. discriminate L.
    + rewrite E1 in L. discriminate L.
  - destruct (add_fin _ _ F) as [Fx F2]. destruct (add_fin _ _ F2) as [_ F3]. rewrite opp_fin in F3.
    destruct C as [[F1 H1]|[[E1 H1]|[E1|E1]]]; [|rewrite E1 in F3; discriminate F3..].
    apply shift_ok; auto. rewrite opp_R. specialize (H1 i Hi Fx). lra.
Qed.

Lemma start_z v (m : Z) i : (1 <= m)%Z -> (0 <= i < m)%Z -> 
  let ad := snd (minmaxF FA v m) in
  let s := if flt FA ad (f0 FA) then fopp FA (v i) else fadd FA (fopp FA (v i)) (fadd FA (f1 FA) ad) in
  is_finite s = true -> 0 <= B2R s.
Proof.
  intros Hm Hi. cbv zeta. pose proof (max_cases v m Hm) as C. cbv zeta in C. set (mn := snd (minmaxF FA v m)) in *.
  destruct (flt FA mn (f0 FA)) eqn:L; intros F.
  - rewrite opp_R. rewrite opp_fin in F. destruct C as [[F1 H1]|[[E1 H1]|[E1|E1]]].
    + apply (lt_R mn (f0 FA)) in L; [|auto|reflexivity]. rewrite B2R_zero in L. specialize (H1 i Hi F). lra.
    + rewrite H1 in F by auto. discriminate F.
    + rewrite E1 in L. discriminate L.
    + rewrite E1 in L. discriminate L.
  - destruct (add_fin _ _ F) as [Fx F2]. destruct (add_fin _ _ F2) as [_ F3]. rewrite opp_fin in Fx.
    destruct C as [[F1 H1]|[[E1 H1]|[E1|E1]]]; [|rewrite E1 in F3; discriminate F3..].
    apply shift_ok; auto. rewrite opp_R. specialize (H1 i Hi Fx). lra.
Qed.
