(** C70: the timers of all three platforms. *)
From Coq Require Import ZArith Reals List Lia Lra Bool.
From Flocq Require Import Core BinarySingleNaN Relative.
From Verif Require Import Res Arith Lists MIface P11_Iface.
Open Scope Z_scope.
Open Scope res_scope.

(** ** Rounding *)

Notation fe := (SpecFloat.fexp 53 1024).
Notation rnd := (round radix2 fe ZnearestE).
(** Half a unit in the last place, relatively. *)
Definition u53 : R := bpow radix2 (-53).

Local Instance fe_valid : Valid_exp fe.
Proof. apply FLT_exp_valid. reflexivity. Qed.

Lemma u53_val : u53 = (/ 9007199254740992)%R.
Proof. reflexivity. Qed.

Lemma rnd_rel r : (r = 0 \/ bpow radix2 (-1022) <= r)%R -> (Rabs (rnd r - r) <= u53 * r)%R.
Proof.
  intros [->|H].
  - rewrite round_0 by auto with typeclass_instances. rewrite Rminus_0_r, Rabs_R0, Rmult_0_r. lra.
  - pose proof (bpow_gt_0 radix2 (-1022)) as HP.
    pose proof (relative_error_N_FLT radix2 (-1074) 53 eq_refl (fun z => negb (Z.even z)) r) as E.
    rewrite (Rabs_pos_eq r) in E by lra. specialize (E H). unfold u53.
    replace (bpow radix2 (-53)) with (/ 2 * bpow radix2 (- (53) + 1))%R; [exact E|].
    change (/ 2)%R with (bpow radix2 (-1)). rewrite <- bpow_plus. reflexivity.
Qed.

Lemma rnd_pos r : (0 <= r)%R -> (0 <= rnd r)%R.
Proof. intros H. apply round_ge_generic; auto with typeclass_instances. apply generic_format_0. Qed.
Lemma rnd_le a b : (a <= b)%R -> (rnd a <= rnd b)%R.
Proof. intros H. apply round_le; auto with typeclass_instances. Qed.
Lemma rnd_id r : generic_format radix2 fe r -> rnd r = r.
Proof. intros H. apply round_generic; auto with typeclass_instances. Qed.
Lemma rnd_cap r e : (r <= bpow radix2 e)%R -> -1074 <= e -> (rnd r <= bpow radix2 e)%R.
Proof.
  intros H He. apply round_le_generic; auto with typeclass_instances. apply generic_format_bpow.
  unfold SpecFloat.fexp. change (SpecFloat.emin 53 1024) with (-1074). lia.
Qed.
Lemma int_format z : Z.abs z <= 2 ^ 53 -> generic_format radix2 fe (IZR z).
Proof.
  intros H. apply (generic_format_FLT radix2 (-1074) 53).
  destruct (Z.eq_dec (Z.abs z) (2 ^ 53)) as [E|E].
  - exists (Float radix2 (Z.sgn z) 53); cbn [Fnum Fexp].
    + unfold F2R. cbn [Fnum Fexp]. change (bpow radix2 53) with (IZR (2 ^ 53)). rewrite <- mult_IZR. f_equal. lia.
    + change (radix2 ^ 53)%Z with (2 ^ 53). lia.
    + lia.
  - exists (Float radix2 z 0); cbn [Fnum Fexp].
    + unfold F2R. cbn [Fnum Fexp bpow]. ring.
    + change (radix2 ^ 53)%Z with (2 ^ 53). lia.
    + lia.
Qed.

Lemma conv z : 0 <= z <= 2 ^ 64 -> is_finite (b64_ofZ z) = true /\ B2R (b64_ofZ z) = rnd (IZR z) /\
  (0 <= B2R (b64_ofZ z) <= bpow radix2 64)%R /\ (Rabs (B2R (b64_ofZ z) - IZR z) <= u53 * IZR z)%R /\
  (z <= 2 ^ 53 -> B2R (b64_ofZ z) = IZR z).
Proof.
  intros Hz. unfold b64_ofZ. pose proof (binary_normalize_correct 53 1024 prec64 emax64 mode_NE z 0 false) as H.
  assert (E : @F2R radix2 {| Fnum := z; Fexp := 0 |} = IZR z) by (unfold F2R; cbn; ring).
  rewrite E in H. cbn [round_mode] in H.
  assert (B : (0 <= rnd (IZR z) <= bpow radix2 64)%R).
  { split; [apply rnd_pos; apply IZR_le; lia|]. apply rnd_cap; [|lia]. change (bpow radix2 64) with (IZR (2 ^ 64)). apply IZR_le. lia. }
  rewrite Rlt_bool_true in H.
  2:{ rewrite Rabs_pos_eq by apply B. eapply Rle_lt_trans; [apply B|]. apply bpow_lt. lia. }
  destruct H as [H1 [H2 _]]. rewrite H1. split; [exact H2|]. split; [reflexivity|]. split; [exact B|]. split.
  - apply rnd_rel. destruct (Z.eq_dec z 0) as [->|Hne]; [left; reflexivity|right].
    apply Rle_trans with (bpow radix2 0); [apply bpow_le; lia|]. apply IZR_le. lia.
  - intros Hs. apply rnd_id. apply int_format. lia.
Qed.

Lemma conv_1e9 : is_finite (b64_ofZ 1000000000) = true /\ B2R (b64_ofZ 1000000000) = 1000000000%R.
Proof. destruct (conv 1000000000 ltac:(lia)) as [H1 [_ [_ [_ H]]]]. split; auto. apply H. lia. Qed.

(** A quotient of such numbers. *)
Lemma quot x y : is_finite x = true -> (0 <= B2R x <= bpow radix2 64)%R -> (1 <= B2R y)%R ->
  is_finite (b64_div x y) = true /\ B2R (b64_div x y) = rnd (B2R x / B2R y) /\ (0 <= B2R (b64_div x y) <= bpow radix2 64)%R.
Proof.
  intros Fx Hx Hy. pose proof (Bdiv_correct 53 1024 prec64 emax64 mode_NE x y ltac:(lra)) as H. cbn [round_mode] in H.
  assert (Q : (0 <= B2R x / B2R y <= bpow radix2 64)%R).
  { split; [apply Rmult_le_pos; [lra|]; apply Rlt_le, Rinv_0_lt_compat; lra|].
    apply Rle_trans with (B2R x); [|lra]. apply Rmult_le_reg_r with (B2R y); [lra|]. replace (B2R x / B2R y * B2R y)%R with (B2R x) by (field; lra). nra. }
  assert (B : (0 <= rnd (B2R x / B2R y) <= bpow radix2 64)%R) by (split; [apply rnd_pos; apply Q|apply rnd_cap; [apply Q|lia]]).
  rewrite Rlt_bool_true in H.
  2:{ rewrite Rabs_pos_eq by apply B. eapply Rle_lt_trans; [apply B|]. apply bpow_lt. lia. }
  destruct H as [H1 [H2 _]]. rewrite Fx in H2. unfold b64_div. rewrite H1. auto.
Qed.

(** A sum. *)
Lemma plus x y : is_finite x = true -> is_finite y = true -> (0 <= B2R x <= bpow radix2 64)%R -> (0 <= B2R y <= bpow radix2 64)%R ->
  is_finite (fadd FA x y : b64) = true /\ B2R (fadd FA x y : b64) = rnd (B2R x + B2R y).
Proof.
  intros Fx Fy Hx Hy. pose proof (Bplus_correct 53 1024 prec64 emax64 mode_NE x y Fx Fy) as H. cbn [round_mode] in H.
  assert (B : (0 <= rnd (B2R x + B2R y) <= bpow radix2 65)%R).
  { split; [apply rnd_pos; lra|]. apply rnd_cap; [|lia]. replace (bpow radix2 65) with (2 * bpow radix2 64)%R; [lra|].
    change 2%R with (bpow radix2 1). rewrite <- bpow_plus. reflexivity. }
  rewrite Rlt_bool_true in H.
  2:{ rewrite Rabs_pos_eq by apply B. eapply Rle_lt_trans; [apply B|]. apply bpow_lt. lia. }
  destruct H as [H1 [H2 _]]. cbn [fadd FA]. rewrite H1. auto.
Qed.

(** A rounding of [r], itself within (1 - k e) and (1 + k e) of [t]. *)
Lemma round_more t r a b : (0 <= t)%R -> (0 <= a)%R -> (0 <= b)%R -> ((1 - a) * t <= r)%R -> (r <= (1 + b) * t)%R ->
  (r = 0 \/ bpow radix2 (-1022) <= r)%R -> (a <= 1)%R ->
  ((1 - (a + u53)) * t <= rnd r <= (1 + (b + u53 + b * u53)) * t)%R.
Proof.
  intros Ht Ha Hb H1 H2 Hr Ha1. pose proof (rnd_rel r Hr) as E. assert (Hu : (0 < u53)%R) by apply bpow_gt_0.
  apply Rabs_le_inv in E. assert (U1 : (u53 < 1)%R) by (rewrite u53_val; lra).
  pose proof (Rmult_le_compat_l (1 - u53) _ _ ltac:(lra) H1) as L. pose proof (Rmult_le_compat_l (1 + u53) _ _ ltac:(lra) H2) as U.
  assert (0 <= a * u53 * t)%R by (apply Rmult_le_pos; [apply Rmult_le_pos|]; lra). split; lra.
Qed.

(** ** Windows *)

Theorem C70_windows_exact t0 t1 freq : 0 < freq -> toc_windows RA t0 t1 freq = Ok (IZR (t1 - t0) / IZR freq)%R.
Proof.
  intros Hf. unfold toc_windows. cbn [fdiv fofZ RA]. destruct (Req_EM_T _ _) as [E|E]; [exfalso; revert E; apply IZR_neq; lia|reflexivity].
Qed.
Print Assumptions C70_windows_exact.

Lemma ge1 z : 1 <= z <= 2 ^ 64 -> (1 <= B2R (b64_ofZ z))%R.
Proof.
  intros Hz. destruct (conv z ltac:(lia)) as [_ [E _]]. rewrite E. apply round_ge_generic; auto with typeclass_instances.
  - apply (int_format 1). lia.
  - apply IZR_le. lia.
Qed.

Lemma ratio_normal x y : (1 <= x <= bpow radix2 64 -> 1 <= y <= bpow radix2 64 -> bpow radix2 (-1022) <= x / y)%R.
Proof.
  intros Hx Hy. apply Rle_trans with (bpow radix2 (-64)); [apply bpow_le; lia|].
  replace (bpow radix2 (-64)) with (/ bpow radix2 64)%R by (symmetry; apply (bpow_opp radix2 64)).
  apply Rle_trans with (/ y)%R; [apply Rinv_le; lra|]. unfold Rdiv. assert (0 < / y)%R by (apply Rinv_0_lt_compat; lra). nra.
Qed.

(** Readings of the performance counter and its frequency: the result is a nonnegative double within a relative 4 * 2^-53 of
    the elapsed time, within 2^-53 for numbers up to 2^53, and no smaller for a later reading. *)
Theorem C70_windows t0 t1 freq : 0 <= t0 <= t1 -> t1 < 2 ^ 63 -> 0 < freq < 2 ^ 63 ->
  let e := (IZR (t1 - t0) / IZR freq)%R in
  exists x, toc_windows FA t0 t1 freq = Ok x /\ is_finite x = true /\ (0 <= B2R x)%R /\
    (Rabs (B2R x - e) <= 4 * u53 * e)%R /\
    (t1 - t0 <= 2 ^ 53 -> freq <= 2 ^ 53 -> B2R x = rnd e /\ (Rabs (B2R x - e) <= u53 * e)%R) /\
    (forall t2 y, t1 <= t2 < 2 ^ 63 -> toc_windows FA t0 t2 freq = Ok y -> (B2R x <= B2R y)%R).
Proof.
  intros H0 H1 Hf e. unfold toc_windows. cbn [fdiv fofZ FA].
  destruct (conv (t1 - t0) ltac:(lia)) as [F1 [E1 [B1 [R1 X1]]]].
  destruct (conv freq ltac:(lia)) as [F2 [E2 [B2 [R2 X2]]]].
  pose proof (ge1 freq ltac:(lia)) as G2.
  destruct (quot _ _ F1 B1 G2) as [Fq [Eq Bq]].
  assert (Hd : (0 < IZR freq)%R) by (apply IZR_lt; lia). assert (Ht : (0 <= IZR (t1 - t0))%R) by (apply IZR_le; lia).
  assert (He : (0 <= e)%R) by (unfold e; apply Rmult_le_pos; [lra|apply Rlt_le, Rinv_0_lt_compat; lra]).
  assert (Hu : (0 < u53)%R) by apply bpow_gt_0. pose proof u53_val as Eu.
  assert (Hn : (B2R (b64_ofZ (t1 - t0)) / B2R (b64_ofZ freq) = 0 \/ bpow radix2 (-1022) <= B2R (b64_ofZ (t1 - t0)) / B2R (b64_ofZ freq))%R).
  { destruct (Z.eq_dec (t1 - t0) 0) as [E0|E0].
    - left. rewrite X1 by lia. rewrite E0. unfold Rdiv. apply Rmult_0_l.
    - right. apply ratio_normal; split; try apply B1; try apply B2; auto. apply ge1. lia. }
  eexists. split; [reflexivity|]. split; [exact Fq|]. split; [apply Bq|]. split; [|split].
  - rewrite Eq. set (a := B2R (b64_ofZ (t1 - t0))) in *. set (b := B2R (b64_ofZ freq)) in *.
    apply Rabs_le_inv in R1. apply Rabs_le_inv in R2. clear E1 E2 X1 X2 Eq Bq Fq F1 F2.
    set (N := IZR (t1 - t0)) in *. set (D := IZR freq) in *.
    assert (Hb : (0 < b)%R) by lra. assert (Ib : (0 < / b)%R) by (apply Rinv_0_lt_compat; lra).
    assert (Ee : (e * D = N)%R) by (unfold e; field; lra).
    assert (L : ((1 - 2 * u53) * e <= a / b)%R).
    { apply Rmult_le_reg_r with b; auto. replace (a / b * b)%R with a by (field; lra).
      apply Rle_trans with ((1 - 2 * u53) * e * ((1 + u53) * D))%R; [|nra]. apply Rmult_le_compat_l; [|lra]. apply Rmult_le_pos; lra. }
    assert (U : (a / b <= (1 + (2 * u53 + 3 * u53 * u53)) * e)%R).
    { apply Rmult_le_reg_r with b; auto. replace (a / b * b)%R with a by (field; lra).
      apply Rle_trans with ((1 + (2 * u53 + 3 * u53 * u53)) * e * ((1 - u53) * D))%R.
      - replace ((1 + (2 * u53 + 3 * u53 * u53)) * e * ((1 - u53) * D))%R with ((1 + u53 + u53 * u53 * (1 - 3 * u53)) * (e * D))%R by ring.
        rewrite Ee. assert (0 <= u53 * u53 * (1 - 3 * u53))%R by (apply Rmult_le_pos; nra). nra.
      - apply Rmult_le_compat_l; [apply Rmult_le_pos; nra|lra]. }
    destruct (round_more e (a / b) (2 * u53) (2 * u53 + 3 * u53 * u53) He ltac:(lra) ltac:(nra) L U Hn ltac:(lra)) as [Q1 Q2].
    apply Rabs_le. assert (3 * u53 * u53 + (2 * u53 + 3 * u53 * u53) * u53 <= u53)%R by nra. split; nra.
  - intros S1 S2. rewrite (X1 S1), (X2 S2) in *. rewrite Eq. fold e. fold e in Hn. split; [reflexivity|]. apply rnd_rel. exact Hn.
  - intros t2 y Ht2 Ey. injection Ey as <-. destruct (conv (t2 - t0) ltac:(lia)) as [F3 [E3 [B3 _]]].
    destruct (quot _ _ F3 B3 G2) as [_ [Eq2 _]]. rewrite Eq, Eq2. apply rnd_le. unfold Rdiv. apply Rmult_le_compat_r; [apply Rlt_le, Rinv_0_lt_compat; lra|].
    rewrite E1, E3. apply rnd_le. apply IZR_le. lia.
Qed.
Print Assumptions C70_windows.

(** ** macOS *)

(** The tick counter may wrap around between the readings; the product with the numerator must not. *)
Theorem C70_macos t0 t1 numer denom : 0 <= t0 < 2 ^ 64 -> 0 <= t1 < 2 ^ 64 -> 0 <= numer -> 0 < denom ->
  let ticks := if t0 <=? t1 then t1 - t0 else t1 + 2 ^ 64 - t0 in
  ticks * numer < 2 ^ 64 ->
  let ns := (IZR ticks * IZR numer / IZR denom)%R in
  exists k x, mach_duration t0 t1 numer denom = Ok k /\ (IZR k <= ns < IZR k + 1)%R /\
    toc_macos FA t0 t1 numer denom = Ok x /\ is_finite x = true /\ (0 <= B2R x)%R /\
    (Rabs (B2R x - IZR k / 1000000000) <= 3 * u53 * (IZR k / 1000000000))%R /\
    toc_macos RA t0 t1 numer denom = Ok (IZR k / 1000000000)%R.
Proof.
  intros H0 H1 Hn Hd ticks Hov ns.
  assert (Et : u64 (t1 - t0) = ticks).
  { unfold u64, ticks. destruct (Z.leb_spec t0 t1); [apply Z.mod_small; lia|].
    replace (t1 - t0) with (t1 + 2 ^ 64 - t0 + (-1) * 2 ^ 64) by lia. rewrite Z_mod_plus_full. apply Z.mod_small. lia. }
  assert (Hk0 : 0 <= ticks < 2 ^ 64) by (unfold ticks; destruct (Z.leb_spec t0 t1); lia).
  assert (Ek : mach_duration t0 t1 numer denom = Ok (ticks * numer / denom)).
  { unfold mach_duration. destruct (Z.eqb_spec denom 0); [lia|]. rewrite Et. unfold u64. rewrite Z.mod_small by nia. reflexivity. }
  set (k := ticks * numer / denom) in *.
  assert (Hp : 0 <= ticks * numer) by nia.
  assert (Hk : 0 <= k <= ticks * numer).
  { split; [apply Z.div_pos; lia|]. unfold k. apply Z.div_le_upper_bound; nia. }
  assert (HD : (0 < IZR denom)%R) by (apply IZR_lt; lia).
  destruct (conv k ltac:(lia)) as [F1 [E1 [B1 [R1 _]]]]. destruct conv_1e9 as [F2 E2].
  destruct (quot _ (b64_ofZ 1000000000) F1 B1 ltac:(rewrite E2; lra)) as [Fq [Eq Bq]]. rewrite E2 in Eq.
  exists k, (b64_div (b64_ofZ k) (b64_ofZ 1000000000)). split; [exact Ek|]. split.
  { assert (En : (ns * IZR denom = IZR (ticks * numer))%R) by (unfold ns; rewrite mult_IZR; field; lra).
    pose proof (Z.div_mod (ticks * numer) denom ltac:(lia)) as DM. pose proof (Z.mod_pos_bound (ticks * numer) denom Hd) as MB. fold k in DM.
    assert (L : (IZR k * IZR denom <= ns * IZR denom)%R) by (rewrite En, <- mult_IZR; apply IZR_le; nia).
    assert (U : (ns * IZR denom < (IZR k + 1) * IZR denom)%R) by (rewrite En, <- plus_IZR, <- mult_IZR; apply IZR_lt; nia).
    split; [apply Rmult_le_reg_r with (IZR denom)|apply Rmult_lt_reg_r with (IZR denom)]; auto. }
  unfold toc_macos. rewrite Ek. cbn [bind fdiv fofZ FA RA]. split; [reflexivity|]. split; [exact Fq|]. split; [apply Bq|]. split.
  2:{ destruct (Req_EM_T _ _) as [E|E]; [exfalso; revert E; apply IZR_neq; lia|reflexivity]. }
  rewrite Eq. set (e := (IZR k / 1000000000)%R). assert (Hu : (0 < u53)%R) by apply bpow_gt_0. pose proof u53_val as Eu.
  assert (Hk' : (0 <= IZR k)%R) by (apply IZR_le; lia). assert (He : (0 <= e)%R) by (unfold e; lra).
  apply Rabs_le_inv in R1.
  destruct (round_more e (B2R (b64_ofZ k) / 1000000000) u53 u53 He ltac:(lra) ltac:(lra)) as [Q1 Q2].
  - unfold e. lra.
  - unfold e. lra.
  - destruct (Z.eq_dec k 0) as [E0|E0].
    + left. rewrite E1, E0, round_0 by auto with typeclass_instances. lra.
    + right. apply ratio_normal; split; try lra; [apply ge1; lia|change (bpow radix2 64) with (IZR (2 ^ 64)); apply IZR_le; lia].
  - lra.
  - apply Rabs_le. assert (u53 * u53 <= u53)%R by nra. split; nra.
Qed.
Print Assumptions C70_macos.

(** With a time base of 10^9/33333335 ns the product overflows after nine minutes: 553 s are reported as 8 ns. *)
Theorem C70_macos_overflow_refuted : exists t0 t1, 0 <= t0 <= t1 /\ t1 < 2 ^ 64 /\
  mach_duration t0 t1 1000000000 33333335 = Ok 8 /\ 553000000000 * 33333335 < (t1 - t0) * 1000000000.
Proof. exists 0, 18446744074. repeat split; vm_compute; congruence. Qed.
Print Assumptions C70_macos_overflow_refuted.

(** ** POSIX *)

Theorem C70_posix t0 t1 : valid_ts t0 -> valid_ts t1 -> nanos t0 <= nanos t1 ->
  let e := (IZR (nanos t1 - nanos t0) / 1000000000)%R in
  exists x, toc FA t0 t1 = Ok x /\ is_finite x = true /\ (Rabs (B2R x - e) <= 3 * u53 * e)%R /\
    (forall t2 y, valid_ts t2 -> tv_sec t2 <= 2 ^ 53 -> nanos t1 <= nanos t2 -> toc FA t0 t2 = Ok y -> (B2R x <= B2R y)%R).
Proof.
  intros V0 V1 Hm e. destruct conv_1e9 as [F2 E2].
  assert (G : forall t2, valid_ts t2 -> nanos t0 <= nanos t2 -> exists s q x,
    s = rnd (IZR (tv_sec (ts_diff t0 t2))) /\ q = rnd (IZR (tv_nsec (ts_diff t0 t2)) / 1000000000) /\
    toc FA t0 t2 = Ok x /\ is_finite x = true /\ B2R x = rnd (s + q) /\
    (Rabs (s - IZR (tv_sec (ts_diff t0 t2))) <= u53 * IZR (tv_sec (ts_diff t0 t2)))%R /\ (0 <= q <= 1)%R).
  { intros t2 V2 H2. destruct (C39_difference t0 t2 V0 V2) as [_ [Hns Hs]]. specialize (Hs H2). unfold toc. cbn [fdiv fofZ FA bind].
    set (d := ts_diff t0 t2) in *.
    destruct (conv (tv_sec d) ltac:(lia)) as [F1 [E1 [B1 [R1 _]]]]. destruct (conv (tv_nsec d) ltac:(lia)) as [F3 [E3 [B3 [_ X3]]]].
    destruct (quot _ (b64_ofZ 1000000000) F3 B3 ltac:(rewrite E2; lra)) as [Fq [Eq Bq]]. rewrite E2, X3 in Eq by lia.
    destruct (plus _ _ F1 Fq B1 Bq) as [Fs Es]. rewrite E1, Eq in Es. rewrite E1 in R1.
    do 3 eexists. split; [reflexivity|]. split; [reflexivity|]. split; [reflexivity|]. split; [exact Fs|]. split; [exact Es|]. split; [exact R1|].
    assert (HN : (0 <= IZR (tv_nsec d) <= 1000000000)%R) by (split; apply IZR_le; lia). split; [apply rnd_pos; lra|].
    apply round_le_generic; auto with typeclass_instances; [apply (int_format 1); lia|lra]. }
  destruct (C39_difference t0 t1 V0 V1) as [Dd [Hns Hs]]. specialize (Hs Hm).
  destruct (G t1 V1 Hm) as [s [q [x [Es [Eq [Ex [Fx [Bx [Rs Hq]]]]]]]]].
  exists x. split; [exact Ex|]. split; [exact Fx|]. split.
  - rewrite Bx. set (d := ts_diff t0 t1) in *. assert (Hu : (0 < u53)%R) by apply bpow_gt_0. pose proof u53_val as Eu.
    assert (HS : (0 <= IZR (tv_sec d))%R) by (apply IZR_le; lia). assert (HN : (0 <= IZR (tv_nsec d))%R) by (apply IZR_le; lia).
    assert (Ee : e = (IZR (tv_sec d) + IZR (tv_nsec d) / 1000000000)%R).
    { unfold e. rewrite <- Dd. unfold nanos. rewrite plus_IZR, mult_IZR. lra. }
    assert (Hn1 : (IZR (tv_nsec d) / 1000000000 = 0 \/ bpow radix2 (-1022) <= IZR (tv_nsec d) / 1000000000)%R).
    { destruct (Z.eq_dec (tv_nsec d) 0) as [E0|E0]; [left; rewrite E0; lra|right].
      apply ratio_normal; split; try lra; try (change (bpow radix2 64) with (IZR (2 ^ 64))); apply IZR_le; lia. }
    pose proof (rnd_rel _ Hn1) as Rq. rewrite <- Eq in Rq. apply Rabs_le_inv in Rq. apply Rabs_le_inv in Rs.
    assert (He : (0 <= e)%R) by (rewrite Ee; lra).
    destruct (round_more e (s + q) u53 u53 He ltac:(lra) ltac:(lra)) as [Q1 Q2]; [rewrite Ee; lra|rewrite Ee; lra| |lra|].
    + destruct (Z.eq_dec (nanos t1 - nanos t0) 0) as [E0|E0].
      * left. assert (E1 : e = 0%R) by (unfold e; rewrite E0; lra). rewrite E1 in Ee. nra.
      * right. assert (P1 : (/ 1000000000 <= e)%R).
        { unfold e. assert (1 <= IZR (nanos t1 - nanos t0))%R by (apply IZR_le; lia). lra. }
        apply Rle_trans with (bpow radix2 (-40)); [apply bpow_le; lia|]. change (bpow radix2 (-40)) with (/ 1099511627776)%R.
        assert ((1 - u53) * e <= s + q)%R by (rewrite Ee; lra). assert (/ 1099511627776 <= (1 - u53) * / 1000000000)%R by (rewrite Eu; lra). nra.
    + apply Rabs_le. assert (u53 * u53 <= u53)%R by nra. split; nra.
  - intros t2 y V2 S2 H2 Ey. destruct (G t2 V2 ltac:(lia)) as [s2 [q2 [x2 [Es2 [Eq2 [Ex2 [_ [Bx2 [_ Hq2]]]]]]]]].
    rewrite Ex2 in Ey. injection Ey as <-. rewrite Bx, Bx2. apply rnd_le.
    destruct (C39_difference t0 t2 V0 V2) as [Dd2 [Hns2 Hs2]]. specialize (Hs2 ltac:(lia)). unfold nanos in Dd, Dd2, H2.
    destruct (Z.eq_dec (tv_sec (ts_diff t0 t1)) (tv_sec (ts_diff t0 t2))) as [E|E].
    + rewrite Es, Es2, E. apply Rplus_le_compat_l. rewrite Eq, Eq2. apply rnd_le. unfold Rdiv. apply Rmult_le_compat_r; [lra|]. apply IZR_le. lia.
    + assert (S3 : tv_sec (ts_diff t0 t2) <= 2 ^ 53) by (unfold valid_ts in V0, V2; lia).
      rewrite rnd_id in Es by (apply int_format; lia). rewrite rnd_id in Es2 by (apply int_format; lia).
      assert (IZR (tv_sec (ts_diff t0 t1)) + 1 <= IZR (tv_sec (ts_diff t0 t2)))%R by (rewrite <- plus_IZR; apply IZR_le; lia). lra.
Qed.
Print Assumptions C70_posix.

(** ** Case *)
Lemma C70_case : (0 <= 5 <= 10000005 /\ 10000005 < 2 ^ 63 /\ 0 < 10000000 < 2 ^ 63) /\
  toc_windows RA 5 10000005 10000000 = Ok (10000000 / 10000000)%R /\
  (* the tick counter wraps around between the readings *)
  mach_duration (2 ^ 64 - 3) 21 125 3 = Ok 1000 /\ (21 + 2 ^ 64 - (2 ^ 64 - 3)) * 125 < 2 ^ 64 /\
  valid_ts (mkTs 7 999999999) /\ valid_ts (mkTs 8 1) /\ valid_ts (mkTs 9 0) /\ nanos (mkTs 7 999999999) <= nanos (mkTs 8 1) <= nanos (mkTs 9 0).
Proof.
  split; [lia|]. split; [apply C70_windows_exact; lia|]. split; [reflexivity|]. split; [lia|]. unfold valid_ts, nanos. cbn. lia.
Qed.
