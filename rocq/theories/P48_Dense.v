(** Claim C86: which rows the ordering sets aside as dense.  With the default parameters the threshold that AMD_2 computes
    in doubles is exactly the integer part of 10 sqrt n; a row is set aside when it has more than 16 neighbours and more
    than 10 sqrt n of them; up to 101 rows none is. *)
From Coq Require Import ZArith Znumtheory Reals List Lia Lra Bool Psatz.
From Flocq Require Import Core BinarySingleNaN.
From Verif Require Import Res Partial Arith Lists MSparse Csc SemVec Flat DenseProofs TransposeProofs MSolver LdlNum VecOps Iter SafeInst Setup Session Spec SpecLink QpSpec
  Api Demo P1_Sparse P2_Kkt P4_Always P5_Session P6_Codes P9_Entry Round MAmd AmdBase AmdView AmdPre AmdOrder P12_Order MMatlab AmdRestore P46_MinDegree P47_Ordering.
Import ListNotations.

(** (Int)(alpha * sqrt((double) n)), src/amd_2.c:603, with alpha = AMD_DEFAULT_DENSE = 10.0 as AMD_defaults stores it
    (src/amd_defaults.c:34, include/amd.h:347).  The conversion of a finite double to Int drops the fraction. *)
Definition dense_double (n : Z) : b64 := fmul FA (b64_ofZ 10) (bsqrt (b64_ofZ n)).
Definition dense_cast (n : Z) : Z := Ztrunc (B2R (dense_double n)).

(** AMD_DEFAULT_AGGRESSIVE, include/amd.h:348. *)
Definition default_amd (mem : nat -> bool) : amd_t := amd_lib mem dense_cast true.

Open Scope res_scope.

(** AMD_defaults, src/amd_defaults.c:19-40: all AMD_CONTROL = 5 entries are cleared, then two are set
    (AMD_DENSE = 0, AMD_AGGRESSIVE = 1, include/amd.h:339-348). *)
Definition amd_defaults (C : option (arr b64)) : res (option (arr b64)) :=
  match C with
  | None => Ok None
  | Some C =>
      C <- for_ 0 5 (fun i C => wr C i (b64_ofZ 0)) C ;;
      C <- wr C 0 (b64_ofZ 10) ;;
      C <- wr C 1 (b64_ofZ 1) ;;
      Ok (Some C)
  end.

(** src/amd_2.c:585-604: the threshold before it is cut to 16 .. n, and the choice of aggressive absorption. *)
Definition amd_control (C : option (arr b64)) (n : Z) : res (Z * bool) :=
  '(alpha, aggressive) <- match C with
                          | Some C => alpha <- rd C 0 ;; a <- rd C 1 ;; Ok (alpha, negb (feqb FA a (b64_ofZ 0)))
                          | None => Ok (b64_ofZ 10, true)
                          end ;;
  dense <- (if flt FA alpha (b64_ofZ 0) then Ok (n - 2) else trunc_FA (fmul FA alpha (bsqrt (b64_ofZ n)))) ;;
  Ok (dense, aggressive).

Open Scope R_scope.

Lemma rnd_int z : (Z.abs z < 2 ^ 53)%Z -> rnd (IZR z) = IZR z.
Proof. intros H. destruct (ofZ_val z H) as [_ E]. rewrite <- E. apply round_generic; [apply valid_rnd_round_mode|apply generic_format_B2R]. Qed.

Lemma dense_value n : (0 <= n < 2 ^ 41)%Z -> B2R (dense_double n) = rnd (10 * rnd (sqrt (IZR n))) /\ is_finite (dense_double n) = true.
Proof.
  intros Hn. destruct (ofZ_val n) as [F1 E1]; [lia|]. destruct (ofZ_val 10) as [F2 E2]; [lia|].
  destruct (Bsqrt_correct 53 1024 prec64 emax64 mode_NE (b64_ofZ n)) as [C [D _]]. rewrite E1 in C.
  assert (F3 : is_finite (bsqrt (b64_ofZ n)) = true).
  { rewrite D. destruct (b64_ofZ n) as [s|s| |s m e H]; try discriminate F1; auto. destruct s; auto. exfalso. cbn [B2R] in E1.
    assert (X : F2R (Float radix2 (cond_Zopp true (Z.pos m)) e) < 0) by (apply F2R_lt_0; cbn; lia). rewrite E1 in X.
    assert (0 <= IZR n) by (apply IZR_le; lia). lra. }
  assert (N0 : 0 <= IZR n) by (apply IZR_le; lia).
  assert (N1 : IZR n <= IZR (2 ^ 41)) by (apply IZR_le; lia).
  assert (SB : 0 <= sqrt (IZR n) <= IZR (2 ^ 41)).
  { split; [apply sqrt_pos|]. destruct (Rle_lt_dec 1 (IZR n)) as [L|L].
    - apply Rle_trans with (IZR n); auto. rewrite <- (sqrt_sqrt (IZR n)) at 2 by auto. rewrite <- (Rmult_1_l (sqrt (IZR n))) at 1. apply Rmult_le_compat_r; [apply sqrt_pos|].
      rewrite <- sqrt_1. apply sqrt_le_1; lra.
    - apply Rle_trans with 1; [rewrite <- sqrt_1; apply sqrt_le_1; lra|apply IZR_le; lia]. }
  assert (B1 : 0 <= rnd (sqrt (IZR n)) <= IZR (2 ^ 41)).
  { split.
    - apply round_ge_generic; [apply fexp_correct; exact prec64|apply valid_rnd_round_mode|apply generic_format_0|apply SB].
    - rewrite <- (rnd_int (2 ^ 41)) by lia. apply round_le; [apply fexp_correct; exact prec64|apply valid_rnd_round_mode|apply SB]. }
  pose proof (Bmult_correct 53 1024 prec64 emax64 mode_NE (b64_ofZ 10) (bsqrt (b64_ofZ n))) as M. rewrite E2, C in M.
  rewrite Rlt_bool_true in M.
  - destruct M as [M1 [M2 _]]. unfold dense_double. cbn [fmul FA]. split; [exact M1|]. rewrite M2, F2, F3. reflexivity.
  - rewrite Rabs_pos_eq.
    + apply Rle_lt_trans with (IZR (10 * 2 ^ 41)).
      * rewrite <- (rnd_int (10 * 2 ^ 41)) by lia. apply round_le; [apply fexp_correct; exact prec64|apply valid_rnd_round_mode|]. rewrite mult_IZR. lra.
      * apply Rlt_trans with (IZR (2 ^ 45)); [apply IZR_lt; lia|]. change 2%Z with (radix_val radix2). rewrite IZR_Zpower by lia. apply bpow_lt. lia.
    + apply round_ge_generic; [apply fexp_correct; exact prec64|apply valid_rnd_round_mode|apply generic_format_0|]. lra.
Qed.

(** Two roundings of 10 sqrt n. *)
Lemma dense_error n : (1 <= n < 2 ^ 41)%Z -> Rabs (B2R (dense_double n) - 10 * sqrt (IZR n)) <= 4 * uu * (10 * sqrt (IZR n)).
Proof.
  intros Hn. destruct (dense_value n ltac:(lia)) as [-> _]. set (r := sqrt (IZR n)).
  assert (R1 : 1 <= r). { unfold r. rewrite <- sqrt_1. apply sqrt_le_1; [lra|apply IZR_le; lia|apply IZR_le; lia]. }
  destruct (rnd_any r) as [e1 [n1 [H1 [H2 ->]]]]. destruct (rnd_any (10 * (r * (1 + e1) + n1))) as [e2 [n2 [H3 [H4 ->]]]].
  assert (EU : eta <= uu * uu). { unfold eta, uu. rewrite <- bpow_plus. apply bpow_le. lia. }
  pose proof uu_pos. pose proof uu_small. pose proof eta_pos.
  assert (U2 : uu <= / 1024). { unfold uu. change (/ 1024) with (bpow radix2 (-10)). apply bpow_le. lia. }
  replace (10 * (r * (1 + e1) + n1) * (1 + e2) + n2 - 10 * r) with (10 * r * (e1 + e2 + e1 * e2) + 10 * n1 * (1 + e2) + n2) by ring.
  eapply Rle_trans; [apply Rabs_triang|]. eapply Rle_trans; [apply Rplus_le_compat_r, Rabs_triang|].
  assert (A1 : Rabs (e1 + e2 + e1 * e2) <= 2 * uu + uu * uu).
  { eapply Rle_trans; [apply Rabs_triang|]. rewrite Rabs_mult. pose proof (Rabs_triang e1 e2). pose proof (Rabs_pos e1). pose proof (Rabs_pos e2).
    assert (Rabs e1 * Rabs e2 <= uu * uu) by (apply Rmult_le_compat; auto). lra. }
  assert (A2 : Rabs (10 * r * (e1 + e2 + e1 * e2)) <= 10 * r * (2 * uu + uu * uu)).
  { rewrite Rabs_mult, (Rabs_pos_eq (10 * r)) by lra. apply Rmult_le_compat_l; lra. }
  assert (A3 : Rabs (10 * n1 * (1 + e2)) <= 10 * eta * 2).
  { rewrite !Rabs_mult, (Rabs_pos_eq 10) by lra. pose proof (Rabs_pos n1). pose proof (Rabs_pos (1 + e2)).
    assert (Rabs (1 + e2) <= 2). { eapply Rle_trans; [apply Rabs_triang|]. rewrite Rabs_R1. lra. }
    apply Rmult_le_compat; lra. }
  assert (A4 : 10 * r * (2 * uu + uu * uu) + 10 * eta * 2 + eta <= 4 * uu * (10 * r)).
  { assert (uu * uu <= uu / 1024) by (unfold Rdiv; apply Rmult_le_compat_l; lra). assert (uu <= uu * r) by nra. nra. }
  lra.
Qed.

Open Scope Z_scope.
Open Scope res_scope.

(** The threshold is the integer part of 10 sqrt n. *)
Theorem C86_threshold n : 0 <= n < 2 ^ 41 -> is_finite (dense_double n) = true /\ 0 <= dense_cast n /\
  dense_cast n * dense_cast n <= 100 * n < (dense_cast n + 1) * (dense_cast n + 1).
Proof.
  intros Hn. destruct (dense_value n Hn) as [EV FV]. split; [exact FV|].
  set (k := Z.sqrt (100 * n)). destruct (Z.sqrt_spec (100 * n) ltac:(lia)) as [K1 K2]. fold k in K1, K2. pose proof (Z.sqrt_nonneg (100 * n)) as K0. fold k in K0.
  unfold Z.succ in K2. enough (E : dense_cast n = k) by (rewrite E; lia).
  destruct (Z.eq_dec (k * k) (100 * n)) as [Eq|Ne].
  - (* a perfect square *)
    assert (Dv : (10 | k)).
    { assert (D2 : (2 | k)). { destruct (prime_mult 2 prime_2 k k) as [X|X]; auto. exists (50 * n). lia. }
      assert (D5 : (5 | k)). { destruct (Znumtheory.prime_mult 5 (ltac:(idtac; apply prime_intro; [lia|]; intros x Hx; apply Zgcd_1_rel_prime; assert (x = 1 \/ x = 2 \/ x = 3 \/ x = 4) as [-> |[-> |[-> | ->]]] by lia; reflexivity)) k k) as [X|X]; auto. exists (20 * n). lia. }
      destruct D2 as [a Ha]. destruct D5 as [b Hb]. exists (a - 2 * b). lia. }
    destruct Dv as [j Hj]. assert (En : n = j * j) by nia. assert (J0 : 0 <= j) by lia. assert (JB : j < 2 ^ 41) by nia.
    unfold dense_cast. rewrite EV. rewrite En, mult_IZR, sqrt_square by (apply IZR_le; auto). rewrite (rnd_int j) by lia. rewrite <- mult_IZR, (rnd_int (10 * j)) by lia.
    rewrite Ztrunc_IZR. lia.
  - assert (L1 : k * k + 1 <= 100 * n) by lia. assert (L2 : 100 * n + 1 <= (k + 1) * (k + 1)) by lia. assert (N1 : 1 <= n) by lia.
    pose proof (dense_error n ltac:(lia)) as ER. set (v := B2R (dense_double n)) in *. set (t := (10 * sqrt (IZR n))%R) in *.
    assert (T2 : (t * t = IZR (100 * n))%R). { unfold t. rewrite mult_IZR. replace (10 * sqrt (IZR n) * (10 * sqrt (IZR n)))%R with (100 * (sqrt (IZR n) * sqrt (IZR n)))%R by ring. rewrite sqrt_sqrt; [ring|apply IZR_le; lia]. }
    assert (T0 : (0 <= t)%R) by (unfold t; pose proof (sqrt_pos (IZR n)); lra).
    apply IZR_le in L1, L2. rewrite (plus_IZR (k * k)), (mult_IZR k k), <- T2 in L1. rewrite (plus_IZR (100 * n)), (mult_IZR (k + 1)), (plus_IZR k), <- T2 in L2.
    assert (KR : (0 <= IZR k)%R) by (apply IZR_le; auto).
    assert (UK : (8 * uu * ((IZR k + 1) * (IZR k + 1)) <= 1)%R).
    { assert (KB : k < 2 ^ 24) by nia. assert (X : (k + 1) * (k + 1) <= 2 ^ 50) by nia. apply IZR_le in X. rewrite mult_IZR, plus_IZR in X.
      assert (Y : (8 * uu * IZR (2 ^ 50) = 1)%R). { unfold uu. change (bpow radix2 (-53)) with (/ 9007199254740992)%R. change (2 ^ 50) with 1125899906842624. lra. }
      eapply Rle_trans; [|right; exact Y]. apply Rmult_le_compat_l; [pose proof uu_pos; lra|exact X]. }
    set (d := (4 * uu * (IZR k + 1))%R). pose proof uu_pos as UP. assert (D0 : (0 < d)%R) by (unfold d; apply Rmult_lt_0_compat; lra).
    assert (D1 : (d * (2 * (IZR k + 1)) <= 1)%R) by (unfold d; lra).
    assert (Tk : (t < IZR k + 1)%R) by (destruct (Rlt_le_dec t (IZR k + 1)); auto; exfalso; assert ((IZR k + 1) * (IZR k + 1) <= t * t)%R by (apply Rmult_le_compat; lra); lra).
    assert (ED : (Rabs (v - t) <= d)%R). { eapply Rle_trans; [exact ER|]. unfold d. apply Rmult_le_compat_l; lra. }
    assert (G1 : (d < t - IZR k)%R).
    { destruct (Rlt_le_dec d (t - IZR k)) as [|X]; auto. exfalso. assert ((t - IZR k) * (t + IZR k) <= d * (t + IZR k))%R by (apply Rmult_le_compat_r; lra).
      assert (d * (t + IZR k) < d * (2 * (IZR k + 1)))%R by (apply Rmult_lt_compat_l; lra). lra. }
    assert (G2 : (d < IZR k + 1 - t)%R).
    { destruct (Rlt_le_dec d (IZR k + 1 - t)) as [|X]; auto. exfalso. assert ((IZR k + 1 - t) * (IZR k + 1 + t) <= d * (IZR k + 1 + t))%R by (apply Rmult_le_compat_r; lra).
      assert (d * (IZR k + 1 + t) < d * (2 * (IZR k + 1)))%R by (apply Rmult_lt_compat_l; lra). lra. }
    apply Rabs_le_inv in ED. unfold dense_cast. fold v. rewrite Ztrunc_floor by lra. apply Zfloor_imp. rewrite plus_IZR. lra.
Qed.

(** The parameters: AMD_defaults on any array of AMD_CONTROL entries, even one nobody has initialised (QP_SETUP declares
    it without a value, src/qpSWIFT.c:203), or no array at all. *)
Theorem C86_control n : 0 <= n < 2 ^ 41 ->
  (forall C, zlen C = 5 -> exists C', amd_defaults (Some C) = Ok (Some C') /\ amd_control (Some C') n = Ok (dense_cast n, true)) /\
  amd_control None n = Ok (dense_cast n, true).
Proof.
  intros Hn. destruct (C86_threshold n Hn) as [F [T0 [T1 T2]]].
  assert (TR : trunc_FA (dense_double n) = Ok (dense_cast n)).
  { assert (E : Btrunc (dense_double n) = dense_cast n).
    { apply eq_IZR. rewrite (Btrunc_correct 53 1024 emax64). apply round_FIX_IZR. }
    unfold trunc_FA, to_long. rewrite F, E. assert (KB : dense_cast n < 2 ^ 24) by nia.
    destruct (Z.leb_spec (- 2 ^ 63) (dense_cast n)); [|lia]. destruct (Z.ltb_spec (dense_cast n) (2 ^ 63)); [reflexivity|lia]. }
  assert (L : flt FA (b64_ofZ 10) (b64_ofZ 0) = false) by reflexivity.
  assert (Q : negb (feqb FA (b64_ofZ 1) (b64_ofZ 0)) = true) by reflexivity. split.
  - intros C HC. destruct C as [|c0 [|c1 [|c2 [|c3 [|c4 [|c5 C]]]]]]; try (exfalso; unfold zlen in HC; cbn [length] in HC; lia).
    eexists. split; [reflexivity|]. unfold amd_control. match goal with |- context [rd ?c 0] => change (rd c 0) with (Ok (b64_ofZ 10)); change (rd c 1) with (Ok (b64_ofZ 1)) end.
    cbn [bind]. rewrite Q. cbn [bind]. rewrite L. fold (dense_double n). rewrite TR. reflexivity.
  - unfold amd_control. cbn [bind]. rewrite L. fold (dense_double n). rewrite TR. reflexivity.
Qed.

(** A node has fewer than n neighbours. *)
Lemma given_deg n iwlen N st iw s i : given n iwlen N st iw s -> 0 <= i < n -> zlen (N i) <= n - 1.
Proof.
  intros G Hi. assert (D : NoDup (i :: N i)). { constructor; [|apply (gv_nd _ _ _ _ _ _ G); auto]. intros X. apply (gv_rng _ _ _ _ _ _ G) in X; auto. lia. }
  assert (I : incl (i :: N i) (zr 0 n)). { intros x [<-|X]; apply in_zr; auto. apply (gv_rng _ _ _ _ _ _ G i x); auto. }
  pose proof (NoDup_incl_length D I) as L. cbn [length] in L. pose proof (zlen_zr 0 n). unfold zlen in *. lia.
Qed.

(** The bound AMD_2 works with, src/amd_2.c:596-606. *)
Lemma dense_bound n d : 0 <= n < 2 ^ 41 -> 0 <= d < n -> d <= Z.min n (Z.max 16 (dense_cast n)) <-> d <= 16 \/ d * d <= 100 * n.
Proof.
  intros Hn Hd. destruct (C86_threshold n Hn) as [_ [T0 [T1 T2]]]. set (k := dense_cast n) in *. split.
  - intros H. destruct (Z.le_gt_cases d 16); [auto|]. right. assert (d <= k) by lia. nia.
  - intros [H|H]; [lia|]. assert (d <= k) by nia. lia.
Qed.

(** The rows that are set aside: more than 16 neighbours, and more than 10 sqrt n of them.  The state [s] is the one from
    which AMD_2 starts to eliminate. *)
Theorem C86_rows n iwlen aggressive N st iw s0 : given n iwlen N st iw s0 -> n < 2 ^ 41 ->
  let dense := Z.min n (Z.max 16 (dense_cast n)) in
  exists s, amd2_init n dense s0 = Ok s /\ reached n iwlen dense aggressive s0 s /\
    AMD_2 n iwlen (dense_cast n) aggressive s0 = (s' <- pivots n iwlen aggressive s ;; post_phase n s') /\
    forall i, 0 <= i < n -> (pending n s i <-> 0 < zlen (N i) /\ (zlen (N i) <= 16 \/ zlen (N i) * zlen (N i) <= 100 * n)).
Proof.
  intros G Hn dense. destruct (C85_first n iwlen dense aggressive N st iw s0 G) as [s [E [R [P _]]]]. exists s. split; [auto|]. split; [auto|].
  split; [unfold AMD_2; cbv zeta; fold dense; rewrite E; reflexivity|]. intros i Hi.
  rewrite P. pose proof (given_deg _ _ _ _ _ _ _ G Hi). pose proof (zlen_nonneg (N i)). pose proof (dense_bound n (zlen (N i)) ltac:(lia) ltac:(lia)). unfold dense. tauto.
Qed.

(** Up to 101 rows, none is. *)
Theorem C86_small n iwlen aggressive N st iw s0 : given n iwlen N st iw s0 -> n <= 101 ->
  exists s, amd2_init n (Z.min n (Z.max 16 (dense_cast n))) s0 = Ok s /\ reached n iwlen (Z.min n (Z.max 16 (dense_cast n))) aggressive s0 s /\
    AMD_2 n iwlen (dense_cast n) aggressive s0 = (s' <- pivots n iwlen aggressive s ;; post_phase n s') /\
    forall i, 0 <= i < n -> (pending n s i <-> N i <> []).
Proof.
  intros G Hn. destruct (C86_rows n iwlen aggressive N st iw s0 G ltac:(lia)) as [s [E [R [E2 P]]]]. exists s. split; [auto|]. split; [auto|]. split; [auto|]. intros i Hi.
  rewrite P by auto. pose proof (given_deg _ _ _ _ _ _ _ G Hi). pose proof (zlen_nonneg (N i)). split.
  - intros [H1 _] X. rewrite X in H1. unfold zlen in H1. simpl in H1. lia.
  - intros X. split; [destruct (N i); [congruence|unfold zlen; simpl; lia]|right; nia].
Qed.

(** Other parameters: a negative one stands for n - 2, whatever else the array holds; NaN and plus
    infinity have no defined result (the comment in src/amd_2.c:595 says so of NaN). *)
Theorem C86_other (C : arr b64) n (alpha a : b64) : rd C 0 = Ok alpha -> rd C 1 = Ok a ->
  (flt FA alpha (b64_ofZ 0) = true -> amd_control (Some C) n = Ok (n - 2, negb (feqb FA a (b64_ofZ 0)))) /\
  (is_nan alpha = true -> amd_control (Some C) n = Ub Undef) /\
  (alpha = B754_infinity false -> amd_control (Some C) n = Ub Undef).
Proof.
  intros R0 R1. unfold amd_control. rewrite R0, R1. cbn [bind]. split; [|split].
  - intros H. rewrite H. reflexivity.
  - intros H. destruct alpha; try discriminate H. reflexivity.
  - intros ->. assert (L : flt FA (B754_infinity false) (b64_ofZ 0) = false) by reflexivity. rewrite L.
    assert (M : is_finite (fmul FA (B754_infinity false) (bsqrt (b64_ofZ n))) = false) by (destruct (bsqrt (b64_ofZ n)) as [b|b| |b m e H]; reflexivity).
    unfold trunc_FA. rewrite M. reflexivity.
Qed.

Lemma all_others n i (l : list Z) : 0 <= i < n -> NoDup l -> (forall x, In x l -> 0 <= x < n /\ x <> i) ->
  zlen l <= n - 2 <-> exists w, 0 <= w < n /\ w <> i /\ ~ In w l.
Proof.
  intros Hi ND R. pose proof (zlen_zr 0 n) as LZ. split.
  - intros H. destruct (existsb (fun w => negb (existsb (Z.eqb w) (i :: l))) (zr 0 n)) eqn:X.
    + apply existsb_exists in X. destruct X as [w [Hw X]]. apply in_zr in Hw. exists w. split; auto. apply negb_true_iff in X.
      assert (K : ~ In w (i :: l)). { intros Y. assert (Z' : existsb (Z.eqb w) (i :: l) = true) by (apply existsb_exists; exists w; split; [auto|apply Z.eqb_refl]). congruence. }
      split; intros Y; apply K; [left; auto|right; auto].
    + exfalso. assert (I : incl (zr 0 n) (i :: l)).
      { intros w Hw. destruct (existsb (Z.eqb w) (i :: l)) eqn:Y.
        - apply existsb_exists in Y. destruct Y as [y [Hy Ey]]. apply Z.eqb_eq in Ey. subst. auto.
        - assert (Z' : existsb (fun w => negb (existsb (Z.eqb w) (i :: l))) (zr 0 n) = true) by (apply existsb_exists; exists w; split; [auto|rewrite Y; reflexivity]). congruence. }
      pose proof (NoDup_incl_length (NoDup_zr 0 n) I) as L. cbn [length] in L. unfold zlen in *. lia.
  - intros [w [Hw [Nw Iw]]]. assert (D : NoDup (w :: i :: l)).
    { constructor; [intros [X|X]; [congruence|auto]|]. constructor; auto. intros X. apply R in X. tauto. }
    assert (I : incl (w :: i :: l) (zr 0 n)) by (intros x [<-|[<-|X]]; apply in_zr; auto; apply R; auto).
    pose proof (NoDup_incl_length D I) as L. cbn [length] in L. unfold zlen in *. lia.
Qed.

(** With a negative parameter only rows joined to every other row, of more than 17, are set aside. *)
Theorem C86_negative n iwlen aggressive N st iw s0 : given n iwlen N st iw s0 ->
  exists s, AMD_2 n iwlen (n - 2) aggressive s0 = (s' <- pivots n iwlen aggressive s ;; post_phase n s') /\
    reached n iwlen (Z.min n (Z.max 16 (n - 2))) aggressive s0 s /\
    forall i, 0 <= i < n -> (pending n s i <-> N i <> [] /\ (n <= 17 \/ exists w, 0 <= w < n /\ w <> i /\ ~ In w (N i))).
Proof.
  intros G. set (dense := Z.min n (Z.max 16 (n - 2))). destruct (C85_first n iwlen dense aggressive N st iw s0 G) as [s [E [R [P _]]]]. exists s.
  split; [unfold AMD_2; cbv zeta; fold dense; rewrite E; reflexivity|]. split; [auto|]. intros i Hi. rewrite P.
  pose proof (given_deg _ _ _ _ _ _ _ G Hi) as L. pose proof (all_others n i (N i) Hi (gv_nd _ _ _ _ _ _ G i Hi) (fun x => gv_rng _ _ _ _ _ _ G i x Hi)) as X.
  assert (Y : N i <> [] <-> 0 < zlen (N i)). { destruct (N i); unfold zlen; simpl; split; intros; try congruence; lia. }
  rewrite Y, <- X. unfold dense. lia.
Qed.

(** At the handle: QP_SETUP with the default parameters. *)
Theorem C86_setup (A : Arith) mem (u : user (car A)) q : div_ok A -> valid_user (default_amd mem) u -> covered u -> u_perm u = None -> u_N u < 2 ^ 41 ->
  setup A (default_amd mem) u = Ok q -> 0 <= AMD_RESULT (q_stats q) ->
  exists iwlen N st iw s0 s s', given (u_N u) iwlen N st iw s0 /\
    (forall v w, 0 <= v < u_N u -> 0 <= w < u_N u -> In w (N v) <-> w <> v /\ (couples u v w \/ couples u w v)) /\
    amd2_init (u_N u) (Z.min (u_N u) (Z.max 16 (dense_cast (u_N u)))) s0 = Ok s /\
    (forall i, 0 <= i < u_N u -> (pending (u_N u) s i <-> 0 < zlen (N i) /\ (zlen (N i) <= 16 \/ zlen (N i) * zlen (N i) <= 100 * u_N u))) /\
    (s1 <- pivots (u_N u) iwlen true s ;; post_phase (u_N u) s1) = Ok s' /\ k_P (q_kkt q) = aLast s'.
Proof.
  intros Hdiv HV Hc HP Hn HS Hr. destruct (C85_setup A mem dense_cast true u q Hdiv HV Hc HP HS Hr) as [iwlen [N [st [iw [s0 [s' [G [IN [E2 EL]]]]]]]]].
  destruct (C86_rows (u_N u) iwlen true N st iw s0 G Hn) as [s [E [_ [EA P]]]]. rewrite EA in E2. exists iwlen, N, st, iw, s0, s, s'. auto 10.
Qed.

(** ** A concrete case: a star, one node joined to all others *)
Definition star_N (n v : Z) : list Z := if v =? 0 then zr 1 n else [0].
Definition star_st (n v : Z) : Z := if v =? 0 then 0 else n - 2 + v.
Definition star_iw (n q : Z) : Z := if q <? n - 1 then q + 1 else 0.
Definition star_s (n : Z) : ast :=
  mkAst (zs (map (star_st n) (zr 0 n))) (zs (map (star_iw n) (zr 0 (2 * (n - 1)))) ++ malloc Z n) (zs (map (fun v => zlen (star_N n v)) (zr 0 n)))
    (malloc Z n) (malloc Z n) (malloc Z n) (malloc Z n) (malloc Z n) (malloc Z n) (malloc Z n) (2 * (n - 1)) 0 0 0 0 0.

Lemma rd_zs_map f n l i : 0 <= i < n -> rd (zs (map f (zr 0 n)) ++ l) i = Ok (f i).
Proof.
  intros Hi. unfold rd, zs, zr. destruct (Z.ltb_spec i 0); [lia|]. rewrite nth_error_app1 by (rewrite !map_length, seq_length; lia).
  rewrite !map_map. erewrite map_nth_error by (apply nth_error_nth' with (d := O); rewrite seq_length; lia). rewrite seq_nth by lia. do 2 f_equal. lia.
Qed.

Lemma star_cells n k p : 0 <= p -> p + Z.of_nat k = n - 1 -> cells (star_iw n) p (zr (p + 1) n).
Proof.
  revert p. induction k as [|k IH]; intros p Hp E.
  - rewrite zr_nil by lia. exact I.
  - rewrite zr_cons by lia. split; [unfold star_iw; destruct (Z.ltb_spec p (n - 1)); lia|]. apply IH; lia.
Qed.

Lemma C86_case n : 2 <= n -> given n (2 * (n - 1) + n) (star_N n) (star_st n) (star_iw n) (star_s n).
Proof.
  intros Hn. assert (Z0 : zlen (star_N n 0) = n - 1) by (unfold star_N; simpl; rewrite zlen_zr; lia).
  assert (Z1 : forall v, v <> 0 -> zlen (star_N n v) = 1) by (intros v Hv; unfold star_N; destruct (Z.eqb_spec v 0); [lia|reflexivity]).
  assert (S1 : forall v, v <> 0 -> star_st n v = n - 2 + v) by (intros v Hv; unfold star_st; destruct (Z.eqb_spec v 0); lia).
  assert (S0 : star_st n 0 = 0) by reflexivity.
  constructor; try lia; try (cbn [aNv aNext aLast aHead aElen aDeg aW star_s]; apply zlen_malloc; lia).
  - intros v u Hv. unfold star_N. destruct (Z.eqb_spec v 0); [rewrite in_zr; lia|]. simpl. lia.
  - intros v Hv. unfold star_N. destruct (Z.eqb_spec v 0); [apply NoDup_zr|]. repeat constructor. simpl. tauto.
  - intros v u Hv Hu. unfold star_N. destruct (Z.eqb_spec v 0); destruct (Z.eqb_spec u 0); rewrite ?in_zr; simpl; lia.
  - intros v Hv. cbn [pfree star_s]. destruct (Z.eq_dec v 0) as [->|H]; [rewrite Z0, S0|rewrite Z1, S1 by auto]; lia.
  - intros v u Hv Hu L. rewrite (S1 u) by lia. destruct (Z.eq_dec v 0) as [->|H]; [rewrite Z0, S0|rewrite Z1, S1 by auto]; lia.
  - cbn [pfree star_s]. lia.
  - intros v Hv. destruct (Z.eq_dec v 0) as [->|H].
    + rewrite S0. change (star_N n 0) with (zr (0 + 1) n). apply (star_cells n (Z.to_nat (n - 1))); lia.
    + rewrite S1 by auto. unfold star_N. destruct (Z.eqb_spec v 0); [lia|]. split; [unfold star_iw; destruct (Z.ltb_spec (n - 2 + v) (n - 1)); lia|exact I].
  - cbn [pfree star_s]. intros q Hq. unfold star_iw. destruct (Z.ltb_spec q (n - 1)); lia.
  - cbn [pfree star_s]. rewrite zr_cons by lia. cbn [sumz]. rewrite Z0. rewrite (sumz_ext _ (fun _ => 1)) by (intros x Hx; apply in_zr in Hx; apply Z1; lia).
    rewrite sumz_ones, zlen_zr. lia.
  - split; [unfold star_s, zs; cbn [aPe]; unfold zlen; rewrite !map_length; pose proof (zlen_zr 0 n); unfold zlen in *; lia|].
    intros i Hi. cbn [aPe star_s]. rewrite <- (app_nil_r (zs _)). apply rd_zs_map. lia.
  - split; [unfold star_s, zs; cbn [aLen]; unfold zlen at 1; rewrite !map_length; pose proof (zlen_zr 0 n); unfold zlen in *; lia|].
    intros i Hi. cbn [aLen star_s]. rewrite <- (app_nil_r (zs _)). rewrite rd_zs_map by lia. reflexivity.
  - split; [cbn [aIw star_s]; rewrite zlen_app, zlen_malloc by lia; unfold zs; unfold zlen; rewrite !map_length; pose proof (zlen_zr 0 (2 * (n - 1))); unfold zlen in *; lia|].
    intros i Hi. cbn [aIw pfree star_s] in *. apply rd_zs_map. lia.
  - repeat split.
Qed.

(** With 101 nodes the centre of the star is eliminated like any other; with 102 it is set aside, the others are not. *)
Lemma C86_sharp : exists s, amd2_init 102 (Z.min 102 (Z.max 16 (dense_cast 102))) (star_s 102) = Ok s /\ ~ pending 102 s 0 /\ forall i, 1 <= i < 102 -> pending 102 s i.
Proof.
  destruct (C86_rows 102 _ true _ _ _ _ (C86_case 102 ltac:(lia)) ltac:(lia)) as [s [E [_ [_ P]]]]. exists s. split; [exact E|].
  assert (Z0 : zlen (star_N 102 0) = 101) by reflexivity. split.
  - rewrite P, Z0 by lia. lia.
  - intros i Hi. rewrite P by lia. assert (Zi : zlen (star_N 102 i) = 1) by (unfold star_N; destruct (Z.eqb_spec i 0); [lia|reflexivity]). rewrite Zi. lia.
Qed.

(** With a negative parameter the centre of a star of 18 nodes is set aside. *)
Lemma C86_negative_case : amd_control (Some [Some (b64_ofZ (-1)); Some (b64_ofZ 0)]) 18 = Ok (16, false) /\
  exists s, reached 18 52 16 false (star_s 18) s /\ ~ pending 18 s 0 /\ pending 18 s 1.
Proof.
  split.
  { apply (C86_other _ 18 (b64_ofZ (-1)) (b64_ofZ 0)); reflexivity. }
  destruct (C86_negative 18 _ false _ _ _ _ (C86_case 18 ltac:(lia))) as [s [_ [R P]]]. exists s. split; [exact R|]. split.
  - rewrite P by lia. intros [_ [X|[w [Hw [Nw Iw]]]]]; [lia|]. apply Iw. change (star_N 18 0) with (zr 1 18). apply in_zr. lia.
  - rewrite P by lia. split; [discriminate|]. right. exists 2. split; [lia|]. split; [lia|]. simpl. lia.
Qed.

(** The library's example meets the hypotheses of [C86_setup]. *)
Lemma C86_setup_case mem : valid_user (default_amd mem) (demo_own FA) /\ covered (demo_own FA) /\ u_perm (demo_own FA) = None /\ u_N (demo_own FA) < 2 ^ 41.
Proof. destruct (C35_case FA) as [H1 [H2 H3]]. split; [apply valid_without; auto|]. split; [exact (demo_covered FA)|]. split; [exact H2|reflexivity]. Qed.
Print Assumptions C86_threshold. Print Assumptions C86_control. Print Assumptions C86_rows. Print Assumptions C86_small. Print Assumptions C86_setup.
Print Assumptions C86_other. Print Assumptions C86_negative.
