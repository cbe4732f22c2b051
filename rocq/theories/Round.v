(** Rounding errors of the binary64 operations and of the sums of products the solver forms. *)
From Coq Require Import ZArith Reals List Lia Lra Bool.
From Flocq Require Import Core BinarySingleNaN Relative Plus_error.
From Verif Require Import Res Arith Lists MSparse Csc SemVec QpSpec.
Import ListNotations.
Open Scope R_scope.

Definition uu : R := bpow radix2 (-53).
Definition eta : R := bpow radix2 (-1075).

Notation rnd := (round radix2 (SpecFloat.fexp 53 1024) (round_mode mode_NE)).

Lemma uu_pos : 0 < uu. Proof. apply bpow_gt_0. Qed.
Lemma eta_pos : 0 < eta. Proof. apply bpow_gt_0. Qed.
Lemma uu_small : uu <= / 4.
Proof. unfold uu. change (/ 4) with (bpow radix2 (-2)). apply bpow_le. lia. Qed.

(** ** One operation *)

Lemma rnd_any x : exists e n, Rabs e <= uu /\ Rabs n <= eta /\ rnd x = x * (1 + e) + n.
Proof.
  destruct (error_N_FLT radix2 (-1074) 53 ltac:(lia) (fun z => negb (Z.even z)) x) as [e [n [He [Hn [_ E]]]]].
  exists e, n. split; [|split; [|exact E]].
  - eapply Rle_trans; [exact He|]. right. unfold uu. change (-53 + 1)%Z with (-52)%Z. change (-53)%Z with (-1 + -52)%Z. rewrite (bpow_plus radix2 (-1)). reflexivity.
  - eapply Rle_trans; [exact Hn|]. right. unfold eta. change (-1075)%Z with (-1 + -1074)%Z. rewrite (bpow_plus radix2 (-1)). reflexivity.
Qed.

Lemma rnd_add x y : generic_format radix2 (SpecFloat.fexp 53 1024) x -> generic_format radix2 (SpecFloat.fexp 53 1024) y ->
  exists e, Rabs e <= uu /\ rnd (x + y) = (x + y) * (1 + e).
Proof.
  intros Hx Hy. destruct (@FLT_plus_error_N_ex radix2 (-1074) 53 prec64 (fun z => negb (Z.even z)) x y Hx Hy) as [e [He E]].
  exists e. split; [|exact E]. eapply Rle_trans; [exact He|].
  assert (U : u_ro radix2 53 = uu).
  { unfold u_ro, uu. change (-53 + 1)%Z with (-52)%Z. change (-53)%Z with (-1 + -52)%Z. rewrite (bpow_plus radix2 (-1)). reflexivity. }
  rewrite U. pose proof uu_pos. apply Rmult_le_reg_r with (1 + uu); [lra|]. unfold Rdiv. rewrite Rmult_assoc, Rinv_l by lra. nra.
Qed.

Lemma overflow_nf (x : b64) s : B2SF x = binary_overflow 53 1024 mode_NE s -> is_finite x = false.
Proof. destruct x; cbn; auto; intros H; discriminate. Qed.

Section Ops.
Variables x y : b64.

Lemma add_fin : is_finite (fadd FA x y) = true -> is_finite x = true /\ is_finite y = true.
Proof.
  cbn [fadd FA]. intros H. destruct x as [sx|sx| |sx mx ex Hx], y as [sy|sy| |sy my ey Hy]; auto; cbn in H; try discriminate H.
  destruct (Bool.eqb sx sy); discriminate H.
Qed.
Lemma sub_fin : is_finite (fsub FA x y) = true -> is_finite x = true /\ is_finite y = true.
Proof.
  cbn [fsub FA]. intros H. destruct x as [sx|sx| |sx mx ex Hx], y as [sy|sy| |sy my ey Hy]; auto; cbn in H; try discriminate H.
  destruct (Bool.eqb sx (negb sy)); discriminate H.
Qed.
Lemma mul_fin : is_finite (fmul FA x y) = true -> is_finite x = true /\ is_finite y = true.
Proof.
  cbn [fmul FA]. intros H. destruct x as [sx|sx| |sx mx ex Hx], y as [sy|sy| |sy my ey Hy]; auto; cbn in H; try discriminate H.
Qed.

Lemma fmt (z : b64) : generic_format radix2 (SpecFloat.fexp 53 1024) (B2R z).
Proof. apply generic_format_B2R. Qed.

Lemma add_val : is_finite (fadd FA x y) = true -> exists e, Rabs e <= uu /\ B2R (fadd FA x y) = (B2R x + B2R y) * (1 + e).
Proof.
  intros H. destruct (add_fin H) as [Fx Fy]. pose proof (Bplus_correct 53 1024 prec64 emax64 mode_NE x y Fx Fy) as C.
  destruct (Rlt_bool _ _).
  - destruct C as [C _]. destruct (rnd_add (B2R x) (B2R y) (fmt x) (fmt y)) as [e [He E]]. exists e. split; auto. cbn [fadd FA]. rewrite C. exact E.
  - destruct C as [C _]. apply overflow_nf in C. cbn [fadd FA] in H. congruence.
Qed.
Lemma sub_val : is_finite (fsub FA x y) = true -> exists e, Rabs e <= uu /\ B2R (fsub FA x y) = (B2R x - B2R y) * (1 + e).
Proof.
  intros H. destruct (sub_fin H) as [Fx Fy]. pose proof (Bminus_correct 53 1024 prec64 emax64 mode_NE x y Fx Fy) as C.
  destruct (Rlt_bool _ _).
  - destruct C as [C _]. destruct (rnd_add (B2R x) (- B2R y) (fmt x) (generic_format_opp _ _ _ (fmt y))) as [e [He E]].
    exists e. split; auto. cbn [fsub FA]. rewrite C. exact E.
  - destruct C as [C _]. apply overflow_nf in C. cbn [fsub FA] in H. congruence.
Qed.
Lemma mul_val : is_finite (fmul FA x y) = true ->
  exists e n, Rabs e <= uu /\ Rabs n <= eta /\ B2R (fmul FA x y) = (B2R x * B2R y) * (1 + e) + n.
Proof.
  intros H. pose proof (Bmult_correct 53 1024 prec64 emax64 mode_NE x y) as C.
  destruct (Rlt_bool _ _).
  - destruct C as [C _]. cbn [fmul FA]. rewrite C. apply rnd_any.
  - apply overflow_nf in C. cbn [fmul FA] in H. congruence.
Qed.
Lemma div_val : is_finite (b64_div x y) = true -> is_finite y = true -> B2R y <> 0 -> 
  is_finite x = true /\ exists e n, Rabs e <= uu /\ Rabs n <= eta /\ B2R (b64_div x y) = (B2R x / B2R y) * (1 + e) + n.
Proof.
  intros H Fy Ny. pose proof (Bdiv_correct 53 1024 prec64 emax64 mode_NE x y Ny) as C.
  change (b64_div x y) with (@Bdiv 53 1024 prec64 emax64 mode_NE x y) in *. destruct (Rlt_bool _ _).
  - destruct C as [C [C2 _]]. split; [congruence|]. rewrite C. apply rnd_any.
  - apply overflow_nf in C. congruence.
Qed.
End Ops.

(** ** Accumulated errors: [x] is [v] up to [k] roundings of quantities of total size [w], and underflows of size [e]. *)

Definition gg (k : nat) : R := (1 + uu) ^ k.

Lemma gg_ge1 k : 1 <= gg k.
Proof. apply pow_R1_Rle. pose proof uu_pos. lra. Qed.
Lemma gg_mono k l : (k <= l)%nat -> gg k <= gg l.
Proof. intros H. apply Rle_pow; auto. pose proof uu_pos. lra. Qed.
Lemma gg_S k : gg (S k) = (1 + uu) * gg k.
Proof. reflexivity. Qed.

Record apx (k : nat) (w e : R) (x : b64) (v : R) : Prop := mkApx {
  ap_size : Rabs v <= w; ap_e : 0 <= e;
  ap_err : is_finite x = true -> Rabs (B2R x - v) <= (gg k - 1) * w + gg k * e
}.

Lemma apx_mono k w e x v k' w' e' : apx k w e x v -> (k <= k')%nat -> w <= w' -> e <= e' -> apx k' w' e' x v.
Proof.
  intros [H1 H2 H3] Hk Hw He. pose proof (Rabs_pos v). pose proof (gg_ge1 k). pose proof (gg_mono k k' Hk). split; try lra.
  intros Hf. eapply Rle_trans; [apply H3; auto|]. apply Rplus_le_compat; apply Rmult_le_compat; lra.
Qed.

Lemma apx_exact x : apx 0 (Rabs (B2R x)) 0 x (B2R x).
Proof. split; try lra. intros _. replace (B2R x - B2R x) with 0 by ring. rewrite Rabs_R0. unfold gg. simpl. lra. Qed.

Lemma apx_sum k w1 w2 e1 e2 x y v1 v2 (z : b64) d : apx k w1 e1 x v1 -> apx k w2 e2 y v2 -> is_finite x = true -> is_finite y = true ->
  Rabs d <= uu -> B2R z = (B2R x + B2R y) * (1 + d) ->
  Rabs (B2R z - (v1 + v2)) <= (gg (S k) - 1) * (w1 + w2) + gg (S k) * (e1 + e2).
Proof.
  intros [A1 A2 A3] [B1 B2 B3] Fx Fy Hd E. specialize (A3 Fx). specialize (B3 Fy). rewrite E, gg_S.
  replace ((B2R x + B2R y) * (1 + d) - (v1 + v2)) with (((B2R x - v1) + (B2R y - v2)) * (1 + d) + (v1 + v2) * d) by ring.
  pose proof uu_pos as U. pose proof (gg_ge1 k) as G.
  set (er := (gg k - 1) * (w1 + w2) + gg k * (e1 + e2)).
  assert (S1 : Rabs ((B2R x - v1) + (B2R y - v2)) <= er).
  { eapply Rle_trans; [apply Rabs_triang|]. unfold er. lra. }
  assert (S2 : Rabs (1 + d) <= 1 + uu) by (eapply Rle_trans; [apply Rabs_triang|]; rewrite Rabs_R1; lra).
  assert (S3 : Rabs (v1 + v2) <= w1 + w2) by (eapply Rle_trans; [apply Rabs_triang|]; lra).
  assert (P1 : Rabs (((B2R x - v1) + (B2R y - v2)) * (1 + d)) <= er * (1 + uu)).
  { rewrite Rabs_mult. apply Rmult_le_compat; auto using Rabs_pos. }
  assert (P2 : Rabs ((v1 + v2) * d) <= (w1 + w2) * uu).
  { rewrite Rabs_mult. apply Rmult_le_compat; auto using Rabs_pos. }
  eapply Rle_trans; [apply Rabs_triang|]. eapply Rle_trans; [apply Rplus_le_compat; [exact P1|exact P2]|].
  unfold er. right. ring.
Qed.

Lemma apx_add k w1 w2 e1 e2 x y v1 v2 : apx k w1 e1 x v1 -> apx k w2 e2 y v2 ->
  apx (S k) (w1 + w2) (e1 + e2) (fadd FA x y) (v1 + v2).
Proof.
  intros A B. split; [eapply Rle_trans; [apply Rabs_triang|]; apply Rplus_le_compat; [apply A|apply B]|pose proof (ap_e _ _ _ _ _ A); pose proof (ap_e _ _ _ _ _ B); lra|].
  intros F. destruct (add_fin x y F) as [Fx Fy]. destruct (add_val x y F) as [d [Hd E]]. eapply apx_sum; eauto.
Qed.
Lemma apx_sub k w1 w2 e1 e2 x y v1 v2 : apx k w1 e1 x v1 -> apx k w2 e2 y v2 ->
  apx (S k) (w1 + w2) (e1 + e2) (fsub FA x y) (v1 - v2).
Proof.
  intros A B. split.
  - unfold Rminus. eapply Rle_trans; [apply Rabs_triang|]. rewrite Rabs_Ropp. apply Rplus_le_compat; [apply A|apply B].
  - pose proof (ap_e _ _ _ _ _ A); pose proof (ap_e _ _ _ _ _ B); lra.
  - intros F. destruct (sub_fin x y F) as [Fx Fy]. destruct (sub_val x y F) as [d [Hd E]].
    assert (B' : apx k w2 e2 (fopp FA y) (- v2)).
    { destruct B as [B1 B2 B3]. split; [rewrite Rabs_Ropp; auto|auto|]. intros _. cbn [fopp FA]. rewrite B2R_Bopp.
      replace (- B2R y - - v2) with (- (B2R y - v2)) by ring. rewrite Rabs_Ropp. auto. }
    apply (apx_sum k w1 w2 e1 e2 x (fopp FA y) v1 (- v2) (fsub FA x y) d); auto.
    + cbn [fopp FA]. rewrite is_finite_Bopp. auto.
    + cbn [fopp FA]. rewrite B2R_Bopp. exact E.
Qed.
Lemma apx_mul x y : apx 1 (Rabs (B2R x) * Rabs (B2R y)) eta (fmul FA x y) (B2R x * B2R y).
Proof.
  pose proof uu_pos. pose proof eta_pos. split; [rewrite Rabs_mult; lra|lra|]. intros F. destruct (mul_val x y F) as [e [n [He [Hn ->]]]].
  replace (B2R x * B2R y * (1 + e) + n - B2R x * B2R y) with (B2R x * B2R y * e + n) by ring.
  eapply Rle_trans; [apply Rabs_triang|]. rewrite !Rabs_mult. unfold gg. simpl.
  assert (Rabs (B2R x) * Rabs (B2R y) * Rabs e <= Rabs (B2R x) * Rabs (B2R y) * uu).
  { apply Rmult_le_compat_l; auto. apply Rmult_le_pos; apply Rabs_pos. }
  nra.
Qed.

(** Division by a number that is exact. *)
Lemma apx_div k w e x v y : apx k w e x v -> is_finite y = true -> 1 <= B2R y -> apx (S k) (w / B2R y) (e + eta) (b64_div x y) (v / B2R y).
Proof.
  intros [A1 A2 A3] Fy Hy. pose proof uu_pos as U. pose proof eta_pos as E0. pose proof (gg_ge1 k) as G.
  assert (I : 0 < / B2R y <= 1) by (split; [apply Rinv_0_lt_compat; lra|rewrite <- Rinv_1; apply Rinv_le; lra]).
  set (r := / B2R y) in *. unfold Rdiv. fold r.
  split; [rewrite Rabs_mult, (Rabs_pos_eq r) by lra; apply Rmult_le_compat_r; lra|lra|].
  intros F. destruct (div_val x y F Fy ltac:(lra)) as [Fx [d [n [Hd [Hn ->]]]]]. specialize (A3 Fx). unfold Rdiv. fold r.
  replace (B2R x * r * (1 + d) + n - v * r) with ((B2R x - v) * (1 + d) * r + v * r * d + n) by ring.
  assert (S2 : Rabs (1 + d) <= 1 + uu) by (eapply Rle_trans; [apply Rabs_triang|]; rewrite Rabs_R1; lra).
  set (er := (gg k - 1) * w + gg k * e) in *.
  assert (P1 : Rabs ((B2R x - v) * (1 + d) * r) <= er * (1 + uu) * r).
  { rewrite !Rabs_mult, (Rabs_pos_eq r) by lra. apply Rmult_le_compat_r; [lra|]. apply Rmult_le_compat; auto using Rabs_pos. }
  assert (P2 : Rabs (v * r * d) <= w * r * uu).
  { rewrite !Rabs_mult, (Rabs_pos_eq r) by lra. apply Rmult_le_compat; auto using Rabs_pos.
    - apply Rmult_le_pos; [apply Rabs_pos|lra].
    - apply Rmult_le_compat_r; lra. }
  eapply Rle_trans; [apply Rabs_triang|]. eapply Rle_trans; [apply Rplus_le_compat_r, Rabs_triang|].
  rewrite gg_S. assert (Ge : gg k * e * (1 + uu) * r <= (1 + uu) * gg k * e).
  { replace ((1 + uu) * gg k * e) with (gg k * e * (1 + uu) * 1) by ring. apply Rmult_le_compat_l; [|lra]. apply Rmult_le_pos; [|lra]. apply Rmult_le_pos; lra. }
  assert (Gn : eta <= (1 + uu) * gg k * eta).
  { rewrite <- (Rmult_1_l eta) at 1. apply Rmult_le_compat_r; [lra|]. nra. }
  unfold er in P1. nra.
Qed.

(** ** Sums of products *)

Definition foldm (l : list (b64 * b64)) (acc : b64) : b64 := fold_left (fun acc t => fsub FA acc (fmul FA (fst t) (snd t))) l acc.
Definition folda (l : list (b64 * b64)) (acc : b64) : b64 := fold_left (fun acc t => fadd FA acc (fmul FA (fst t) (snd t))) l acc.
Definition vals (l : list (b64 * b64)) : R := sumr (fun t => B2R (fst t) * B2R (snd t)) l.
Definition sizes (l : list (b64 * b64)) : R := sumr (fun t => Rabs (B2R (fst t)) * Rabs (B2R (snd t))) l.

Lemma foldm_apx l : forall k w e acc v, (1 <= k)%nat -> apx k w e acc v ->
  apx (k + length l) (w + sizes l) (e + INR (length l) * eta) (foldm l acc) (v - vals l).
Proof.
  induction l as [|[a b] l IH]; intros k w e acc v Hk H.
  - unfold sizes, vals. cbn [length sumr foldm folda fold_left INR]. replace (k + 0)%nat with k by lia. replace (w + 0) with w by ring. replace (e + 0 * eta) with e by ring. replace (v - 0) with v by ring. exact H.
  - cbn [foldm fold_left]. change (apx (k + length ((a, b) :: l)) (w + sizes ((a, b) :: l)) (e + INR (length ((a, b) :: l)) * eta)
      (foldm l (fsub FA acc (fmul FA a b))) (v - vals ((a, b) :: l))).
    pose proof (apx_sub k _ _ _ _ _ _ _ _ H (apx_mono _ _ _ _ _ k _ _ (apx_mul a b) Hk (Rle_refl _) (Rle_refl _))) as H1.
    specialize (IH (S k) _ _ _ _ ltac:(lia) H1). cbn [length] in *. rewrite S_INR. unfold sizes, vals in *. cbn [sumr fst snd].
    replace (k + S (length l))%nat with (S k + length l)%nat by lia.
    match type of IH with apx _ ?w1 ?e1 _ ?v1 => match goal with |- apx _ ?w2 ?e2 _ ?v2 => replace w2 with w1; [replace e2 with e1; [replace v2 with v1; [exact IH|]|]|] end end; ring.
Qed.
Lemma folda_apx l : forall k w e acc v, (1 <= k)%nat -> apx k w e acc v ->
  apx (k + length l) (w + sizes l) (e + INR (length l) * eta) (folda l acc) (v + vals l).
Proof.
  induction l as [|[a b] l IH]; intros k w e acc v Hk H.
  - unfold sizes, vals. cbn [length sumr foldm folda fold_left INR]. replace (k + 0)%nat with k by lia. replace (w + 0) with w by ring. replace (e + 0 * eta) with e by ring. replace (v + 0) with v by ring. exact H.
  - change (apx (k + length ((a, b) :: l)) (w + sizes ((a, b) :: l)) (e + INR (length ((a, b) :: l)) * eta)
      (folda l (fadd FA acc (fmul FA a b))) (v + vals ((a, b) :: l))).
    pose proof (apx_add k _ _ _ _ _ _ _ _ H (apx_mono _ _ _ _ _ k _ _ (apx_mul a b) Hk (Rle_refl _) (Rle_refl _))) as H1.
    specialize (IH (S k) _ _ _ _ ltac:(lia) H1). cbn [length] in *. rewrite S_INR. unfold sizes, vals in *. cbn [sumr fst snd].
    replace (k + S (length l))%nat with (S k + length l)%nat by lia.
    match type of IH with apx _ ?w1 ?e1 _ ?v1 => match goal with |- apx _ ?w2 ?e2 _ ?v2 => replace w2 with w1; [replace e2 with e1; [replace v2 with v1; [exact IH|]|]|] end end; ring.
Qed.

Lemma folda_fin l : forall acc, is_finite (folda l acc) = true ->
  is_finite acc = true /\ forall t, In t l -> is_finite (fst t) = true /\ is_finite (snd t) = true.
Proof.
  induction l as [|[a b] l IH]; intros acc H; [split; auto; intros t []|].
  apply (IH (fadd FA acc (fmul FA a b))) in H. destruct H as [H1 H2]. destruct (add_fin _ _ H1) as [H3 H4]. destruct (mul_fin _ _ H4) as [H5 H6].
  split; auto. intros t [<-|Ht]; auto.
Qed.

(** ** The solver's sums *)

Open Scope Z_scope.
Notation FF := (car FA).

Definition mapc (f : b64 -> R) (col : cols b64) : cols R := fun j => map (fun e => (fst e, f (snd e))) (col j).
Definition absB (x : b64) : R := Rabs (B2R x).

Definition mult_terms (col : cols b64) (n : Z) (x : Z -> b64) (i : Z) : list (b64 * b64) :=
  flat_map (fun j => map (fun e => (x j, snd e)) (filter (fun e => fst e =? i) (col j))) (zr 0 n).
Definition tmult_terms (col : cols b64) (x : Z -> b64) (j : Z) : list (b64 * b64) := map (fun e => (snd e, x (fst e))) (col j).
Definition dot_terms (x y : Z -> b64) (n : Z) : list (b64 * b64) := map (fun i => (x i, y i)) (zr 0 n).

Lemma foldm_app l1 l2 a : foldm (l1 ++ l2) a = foldm l2 (foldm l1 a).
Proof. apply fold_left_app. Qed.

Lemma multF_terms col n x i y0 : multF FA col n x i y0 = foldm (mult_terms col n x i) y0.
Proof.
  unfold multF, mult_terms. generalize (zr 0 n). intros l. revert y0. induction l as [|j l IH]; intros y0; [reflexivity|].
  cbn [fold_left flat_map]. rewrite foldm_app, <- IH. f_equal. unfold mult_col. clear. change (car FA) with b64 in *. generalize (col j). intros c. revert y0.
  induction c as [|e c IHc]; intros y0; [reflexivity|]. cbn [fold_left filter]. destruct (fst e =? i); [|apply IHc].
  cbn [map foldm fold_left]. apply IHc.
Qed.
Lemma tmultF_terms col x j y0 : tmultF FA col x j y0 = foldm (tmult_terms col x j) y0.
Proof.
  unfold tmultF, tmult_terms, foldm. generalize (col j). intros c. revert y0. induction c as [|e c IHc]; intros y0; [reflexivity|].
  cbn [map fold_left fst snd]. apply IHc.
Qed.
Lemma dotF_terms x y n : dotF FA x y n = folda (dot_terms x y n) (f0 FA).
Proof.
  unfold dotF, dot_terms, folda. generalize (zr 0 n) (f0 FA). intros c. induction c as [|e c IHc]; intros y0; [reflexivity|].
  cbn [map fold_left fst snd]. apply IHc.
Qed.

Lemma sumr_filter {T} (f : T -> R) g l : sumr f (filter g l) = sumr (fun e => if g e then f e else 0%R) l.
Proof. induction l as [|a l IH]; [reflexivity|]. cbn [filter sumr]. destruct (g a); cbn [sumr]; rewrite IH; lra. Qed.

Lemma mult_sum f g col n x i : 
  sumr (fun t => (f (fst t) * g (snd t))%R) (mult_terms col n x i) = Sum n (fun j => (ent (mapc g col j) i * f (x j))%R).
Proof.
  unfold mult_terms, Sum. generalize (zr 0 n). intros l. induction l as [|j l IH]; [reflexivity|].
  cbn [flat_map sumr]. rewrite sumr_app, IH. f_equal. rewrite sumr_map. cbn [fst snd]. rewrite sumr_filter. unfold ent, mapc. rewrite sumr_map. cbn [fst snd].
  generalize (col j). intros c. induction c as [|e c IHc]; cbn [sumr]; [lra|]. rewrite IHc. destruct (fst e =? i); lra.
Qed.
Lemma tmult_sum f g col m x j : (forall r v, In (r, v) (col j) -> 0 <= r < m) ->
  sumr (fun t => (g (fst t) * f (snd t))%R) (tmult_terms col x j) = Sum m (fun i => (ent (mapc g col j) i * f (x i))%R).
Proof.
  intros H. unfold tmult_terms, Sum. rewrite <- (ent_sum (mapc g col j) m (fun i => f (x i))).
  - unfold mapc. rewrite !sumr_map. reflexivity.
  - intros r v Hin. unfold mapc in Hin. apply in_map_iff in Hin. destruct Hin as [[r' v'] [[= <- _] Hin]]. eapply H; eauto.
Qed.
Lemma dot_sum f x y n : sumr (fun t => (f (fst t) * f (snd t))%R) (dot_terms x y n) = Sum n (fun i => (f (x i) * f (y i))%R).
Proof. unfold dot_terms, Sum. rewrite sumr_map. reflexivity. Qed.

Lemma mult_terms_len col n x i : Z.of_nat (length (mult_terms col n x i)) <= start col n.
Proof.
  unfold mult_terms, start. generalize (zr 0 n). intros l. induction l as [|j l IH]; [reflexivity|].
  cbn [flat_map map]. rewrite List.app_length, map_length. cbn [sumz]. 
  assert (L : (length (filter (fun e : Z * b64 => (fst e =? i)%Z) (col j)) <= length (col j))%nat).
  { generalize (col j). intros c. induction c as [|e c IHc]; cbn [filter length]; [lia|]. destruct (fst e =? i); cbn [length]; lia. }
  unfold zlen in *. change (car FA) with b64 in *. lia.
Qed.

(** ** Bounds *)
Open Scope R_scope.

Definition gamma (K : nat) : R := 2 * INR K * uu.

Lemma gg_gamma K : gamma K <= 1 / 2 -> gg K <= 1 + gamma K.
Proof.
  unfold gamma. pose proof uu_pos as U. induction K as [|K IH]; intros H; [unfold gg; simpl; lra|].
  rewrite S_INR in *. pose proof (pos_INR K) as P. assert (0 <= INR K * uu) by (apply Rmult_le_pos; lra).
  rewrite gg_S. assert (G : gg K <= 1 + 2 * INR K * uu) by (apply IH; lra).
  assert ((1 + uu) * gg K <= (1 + uu) * (1 + 2 * INR K * uu)) by (apply Rmult_le_compat_l; lra). nra.
Qed.

Lemma apx_gamma k w e x v K : apx k w e x v -> (k <= K)%nat -> gamma K <= 1 / 2 -> is_finite x = true ->
  Rabs (B2R x - v) <= gamma K * w + 3 / 2 * e.
Proof.
  intros A Hk Hg F. pose proof (apx_mono _ _ _ _ _ K w e A Hk ltac:(lra) ltac:(lra)) as [A1 A2 A3].
  pose proof (gg_gamma K Hg). pose proof (Rabs_pos v). eapply Rle_trans; [apply A3, F|].
  apply Rplus_le_compat; apply Rmult_le_compat_r; lra.
Qed.

Lemma Minkowski k u v : Euclid (fun i => u i + v i) k <= Euclid u k + Euclid v k.
Proof.
  pose proof (Euclid_nonneg u k) as A. pose proof (Euclid_nonneg v k) as B. pose proof (Euclid_nonneg (fun i => u i + v i) k) as C.
  apply Rsqr_incr_0_var; [|lra]. unfold Rsqr. rewrite Euclid_sq.
  rewrite (Sum_ext k _ (fun i => (u i * u i + v i * v i) + 2 * (u i * v i))) by (intros; ring).
  rewrite !Sum_plus, Sum_scal, <- !Euclid_sq. pose proof (Cauchy k u v) as H. pose proof (Rle_abs (Sum k (fun i => u i * v i))). lra.
Qed.
Lemma Euclid_le k u v : (forall i, (0 <= i < k)%Z -> Rabs (u i) <= v i) -> Euclid u k <= Euclid v k.
Proof.
  intros H. unfold Euclid. apply sqrt_le_1_alt. apply Sum_le. intros i Hi. specialize (H i Hi). pose proof (Rabs_pos (u i)).
  replace (u i * u i) with (Rabs (u i) * Rabs (u i)) by (rewrite <- Rabs_mult; apply Rabs_pos_eq; apply Rle_0_sqr).
  apply Rmult_le_compat; lra.
Qed.
Lemma Euclid_const c k : 0 <= c -> (0 <= k)%Z -> Euclid (fun _ => c) k = c * sqrt (IZR k).
Proof.
  intros Hc Hk. unfold Euclid, Sum. replace (sumr (fun _ : Z => c * c) (zr 0 k)) with (c * c * IZR k).
  - rewrite sqrt_mult_alt by apply Rle_0_sqr. f_equal. apply sqrt_square; auto.
  - revert Hk. apply (natlike_ind (fun k => c * c * IZR k = sumr (fun _ => c * c) (zr 0 k))); [change (zr 0 0) with (@nil Z); cbn [sumr]; lra|].
    intros x Hx E. unfold Z.succ. rewrite zr_snoc, sumr_app, <- E by lia. cbn [sumr]. rewrite plus_IZR. lra.
Qed.

Lemma sqrt_plus a b : 0 <= a -> 0 <= b -> sqrt (a + b) <= sqrt a + sqrt b.
Proof.
  intros A B. pose proof (sqrt_pos a). pose proof (sqrt_pos b). apply Rsqr_incr_0_var; [|lra]. unfold Rsqr.
  rewrite sqrt_sqrt by lra. pose proof (sqrt_sqrt a A). pose proof (sqrt_sqrt b B). nra.
Qed.

(** The computed norm against the norm of the computed vector. *)
Lemma flt_finite (x y : b64) : flt FA x y = true -> is_finite y = true -> x <> B754_infinity true -> is_finite x = true /\ B2R x < B2R y.
Proof.
  intros H Fy Nx. assert (Fx : is_finite x = true).
  { destruct x as [sx|[]| |sx mx ex Hx]; try reflexivity; try congruence; destruct y as [[]|[]| |[] my ey Hy]; cbn in H, Fy; discriminate. }
  split; auto. cbn [flt FA] in H. rewrite Bltb_correct in H by auto. revert H. case Rlt_bool_spec; [auto|discriminate].
Qed.

Notation bsqrt := (@Bsqrt 53 1024 prec64 emax64 mode_NE).

Lemma sqrt_val (x : b64) : is_finite (bsqrt x) = true ->
  is_finite x = true /\ 0 <= B2R x /\ 0 <= B2R (bsqrt x) /\
  exists e n, Rabs e <= uu /\ Rabs n <= eta /\ B2R (bsqrt x) = sqrt (B2R x) * (1 + e) + n.
Proof.
  intros F. destruct (Bsqrt_correct 53 1024 prec64 emax64 mode_NE x) as [C [D _]].
  assert (E : exists e n, Rabs e <= uu /\ Rabs n <= eta /\ B2R (bsqrt x) = sqrt (B2R x) * (1 + e) + n) by (rewrite C; apply rnd_any).
  assert (N : 0 <= B2R (bsqrt x)) by (rewrite C; apply round_ge_generic; [apply fexp_correct; exact prec64|apply valid_rnd_round_mode|apply generic_format_0|apply sqrt_pos]).
  rewrite D in F. destruct x as [sx|[]| |[] mx ex Hx]; try discriminate F; (split; [reflexivity|split; [|split; [exact N|exact E]]]).
  - cbn. lra.
  - apply F2R_ge_0. cbn. lia.
Qed.

Lemma B2R_zero : B2R (f0 FA) = 0.
Proof. reflexivity. Qed.

Lemma sqrt_not_minus_inf (x : b64) : bsqrt x <> B754_infinity true.
Proof. 
  destruct (Bsqrt_correct 53 1024 prec64 emax64 mode_NE x) as [C [D E]]. destruct x as [sx|[]| |[] mx ex Hx]; try (cbn; discriminate).
  intros X. rewrite X in D. discriminate D.
Qed.

Lemma apx_zero : apx 1 0 0 (f0 FA) 0.
Proof. split; try rewrite Rabs_R0; try lra. intros _. rewrite B2R_zero. replace (0 - 0) with 0 by ring. rewrite Rabs_R0. unfold gg. simpl. pose proof uu_pos. lra. Qed.

Lemma dot_apx x y k : (0 <= k)%Z -> apx (S (Z.to_nat k)) (Sum k (fun i => absB (x i) * absB (y i))) (INR (Z.to_nat k) * eta) (dotF FA x y k) (Sum k (fun i => B2R (x i) * B2R (y i))).
Proof.
  intros Hk. rewrite dotF_terms. pose proof (folda_apx (dot_terms x y k) 1 0 0 (f0 FA) 0 ltac:(lia) apx_zero) as H.
  unfold vals, sizes in H. change (fun t : b64 * b64 => Rabs (B2R (fst t)) * Rabs (B2R (snd t))) with (fun t : b64 * b64 => absB (fst t) * absB (snd t)) in H.
  rewrite (dot_sum absB), (dot_sum B2R) in H. unfold dot_terms in H at 1 2. rewrite !map_length in H. unfold zr in H at 1 2. rewrite !map_length, seq_length in H.
  replace (Z.to_nat (k - 0)) with (Z.to_nat k) in H by lia. rewrite !Rplus_0_l in H. exact H.
Qed.

Definition tiny (e : Z) : R := bpow radix2 e.

Lemma norm_bound (v : Z -> b64) (k : Z) (tol : b64) K : (0 <= k)%Z -> (S (Z.to_nat k) <= K)%nat -> gamma K <= 1 / 2 ->
  flt FA (bsqrt (dotF FA v v k)) tol = true -> is_finite tol = true ->
  (forall i, (0 <= i < k)%Z -> is_finite (v i) = true) /\ 0 < B2R tol /\ Euclid (fun i => B2R (v i)) k <= (B2R tol + tiny (-510)) / ((1 - gamma K) * (1 - gamma K)).
Proof.
  intros Hk HK Hg Hlt Ft. set (d := dotF FA v v k) in *.
  destruct (flt_finite _ _ Hlt Ft (sqrt_not_minus_inf d)) as [Fn Lt].
  destruct (sqrt_val d Fn) as [Fd [Pd [Ps [e [n [He [Hn En]]]]]]]. pose proof uu_pos as U. pose proof uu_small as U4. pose proof eta_pos as E0.
  assert (Fv : forall i, (0 <= i < k)%Z -> is_finite (v i) = true).
  { intros i Hi. unfold d in Fd. rewrite dotF_terms in Fd. destruct (folda_fin _ _ Fd) as [_ H]. apply (H (v i, v i)).
    unfold dot_terms. apply in_map_iff. exists i. split; auto. apply in_zr. lia. }
  split; [exact Fv|]. pose proof (dot_apx v v k Hk) as A. fold d in A.
  pose proof (apx_gamma _ _ _ _ _ K A HK Hg Fd) as B. set (s2 := Sum k (fun i => B2R (v i) * B2R (v i))) in *.
  replace (Sum k (fun i => absB (v i) * absB (v i))) with s2 in B
    by (apply Sum_ext; intros; unfold absB; rewrite <- Rabs_mult; symmetry; apply Rabs_pos_eq; apply Rle_0_sqr).
  assert (S0 : 0 <= s2) by (apply Sum_nonneg; intros; apply Rle_0_sqr).
  apply Rabs_le_inv in B. apply Rabs_le_inv in He. apply Rabs_le_inv in Hn. pose proof (sqrt_pos (B2R d)) as P0.
  assert (g0 : 2 * uu <= gamma K).
  { unfold gamma. assert (1 <= INR K) by (replace 1 with (INR 1) by reflexivity; apply le_INR; lia). nra. }
  assert (D1 : sqrt (B2R d) * (1 - gamma K) <= B2R tol + eta) by nra.
  split; [exact (Rle_lt_trans _ _ _ Ps Lt)|].
  assert (T : 3 / 2 * (INR (Z.to_nat k) * eta) <= tiny (-1022)).
  { assert (INR (Z.to_nat k) <= INR K) by (apply le_INR; lia).
    assert (INR K * uu <= 1 / 4) by (unfold gamma in Hg; lra).
    assert (Ee : eta = uu * tiny (-1022)) by (unfold eta, uu, tiny; rewrite <- bpow_plus; reflexivity).
    assert (0 < tiny (-1022)) by apply bpow_gt_0. rewrite Ee.
    replace (3 / 2 * (INR (Z.to_nat k) * (uu * tiny (-1022)))) with (3 / 2 * (INR (Z.to_nat k) * uu) * tiny (-1022)) by ring.
    assert (INR (Z.to_nat k) * uu <= INR K * uu) by (apply Rmult_le_compat_r; lra).
    rewrite <- (Rmult_1_l (tiny (-1022))) at 2. apply Rmult_le_compat_r; lra. }
  assert (T2 : sqrt (tiny (-1022)) = tiny (-511)).
  { apply sqrt_lem_1; try (left; apply bpow_gt_0). unfold tiny. rewrite <- bpow_plus. reflexivity. }
  assert (T3 : tiny (-511) + eta <= tiny (-510)).
  { assert (eta <= tiny (-511)) by (apply bpow_le; lia). replace (tiny (-510)) with (2 * tiny (-511)) by (unfold tiny; change (-510)%Z with (1 + -511)%Z; rewrite bpow_plus; reflexivity). lra. }
  assert (Tp : 0 < tiny (-511)) by apply bpow_gt_0.
  set (g := gamma K) in *. assert (G1 : s2 * (1 - g) <= B2R d + tiny (-1022)) by lra.
  unfold Euclid. fold s2.
  assert (G2 : sqrt s2 * (1 - g) <= sqrt (B2R d) + tiny (-511)).
  { rewrite <- T2. eapply Rle_trans; [|apply sqrt_plus; [lra|left; apply bpow_gt_0]].
    rewrite <- (sqrt_square (1 - g)) by lra. rewrite <- sqrt_mult_alt by lra. apply sqrt_le_1_alt.
    eapply Rle_trans; [|exact G1]. rewrite <- Rmult_assoc. rewrite <- (Rmult_1_r (s2 * (1 - g))) at 2. apply Rmult_le_compat_l; [apply Rmult_le_pos; lra|lra]. }
  assert (G3 : 0 < (1 - g) * (1 - g)) by (apply Rmult_lt_0_compat; lra).
  apply Rmult_le_reg_r with ((1 - g) * (1 - g)); [exact G3|]. unfold Rdiv. rewrite Rmult_assoc, Rinv_l, Rmult_1_r by lra.
  rewrite <- Rmult_assoc. apply (Rmult_le_compat_r (1 - g)) in G2; [|lra]. rewrite Rmult_plus_distr_r in G2.
  assert (tiny (-511) * (1 - g) <= tiny (-511) * 1) by (apply Rmult_le_compat_l; lra). lra.
Qed.

Lemma foldm_fin l : forall acc, is_finite (foldm l acc) = true ->
  is_finite acc = true /\ forall t, In t l -> is_finite (fst t) = true /\ is_finite (snd t) = true.
Proof.
  induction l as [|[a b] l IH]; intros acc H; [split; auto; intros t []|].
  apply (IH (fsub FA acc (fmul FA a b))) in H. destruct H as [H1 H2]. destruct (sub_fin _ _ H1) as [H3 H4]. destruct (mul_fin _ _ H4) as [H5 H6].
  split; auto. intros t [<-|Ht]; auto.
Qed.

(** The residual itself. *)
Lemma resid_bound (v : Z -> b64) (r w : Z -> R) (k : Z) (tol : b64) K : (0 <= k)%Z -> (S (Z.to_nat k) <= K)%nat -> gamma K <= 1 / 2 ->
  (forall i, (0 <= i < k)%Z -> apx K (w i) (INR K * eta) (v i) (r i)) ->
  flt FA (bsqrt (dotF FA v v k)) tol = true -> is_finite tol = true ->
  0 < B2R tol /\ Euclid r k <= (B2R tol + tiny (-510)) / ((1 - gamma K) * (1 - gamma K)) + gamma K * Euclid w k + tiny (-510).
Proof.
  intros Hk HK Hg Ha Hlt Ft. destruct (norm_bound v k tol K Hk HK Hg Hlt Ft) as [Fv [T0 N]]. split; auto.
  set (c := 3 / 2 * (INR K * eta)).
  pose proof uu_pos as U. pose proof eta_pos as E0. pose proof (pos_INR K) as PK.
  assert (C0 : 0 <= c) by (unfold c; assert (0 <= INR K * eta) by (apply Rmult_le_pos; lra); lra).
  assert (g0 : 0 <= gamma K) by (unfold gamma; assert (0 <= INR K * uu) by (apply Rmult_le_pos; lra); lra).
  assert (H1 : Euclid r k <= Euclid (fun i => B2R (v i)) k + Euclid (fun i => gamma K * w i + c) k).
  { rewrite (Euclid_ext r (fun i => B2R (v i) + (r i - B2R (v i)))) by (intros; ring).
    eapply Rle_trans; [apply Minkowski|]. apply Rplus_le_compat_l. apply Euclid_le. intros i Hi. 
    rewrite Rabs_minus_sym. apply (apx_gamma K _ _ _ _ K (Ha i Hi) ltac:(lia) Hg (Fv i Hi)). }
  assert (H2 : Euclid (fun i => gamma K * w i + c) k <= gamma K * Euclid w k + c * sqrt (IZR k)).
  { eapply Rle_trans; [apply Minkowski|]. rewrite Euclid_scal, Euclid_const, Rabs_pos_eq by lia||lra. lra. }
  assert (H3 : c * sqrt (IZR k) <= tiny (-510)).
  { assert (Hu : INR K * uu <= 1 / 4) by (unfold gamma in Hg; lra).
    assert (Ik : IZR k <= INR K) by (rewrite INR_IZR_INZ; apply IZR_le; lia).
    assert (Sk : sqrt (IZR k) <= INR K).
    { assert (1 <= INR K) by (replace 1 with (INR 1) by reflexivity; apply le_INR; lia).
      rewrite <- (sqrt_square (INR K)) by lra. apply sqrt_le_1_alt. nra. }
    pose proof (sqrt_pos (IZR k)).
    assert (Ee : eta = uu * uu * tiny (-969)) by (unfold eta, uu, tiny; rewrite <- !bpow_plus; reflexivity).
    assert (T9 : tiny (-969) <= tiny (-510)) by (apply bpow_le; lia). assert (0 < tiny (-969)) by apply bpow_gt_0.
    assert (c * sqrt (IZR k) <= c * INR K) by (apply Rmult_le_compat_l; lra).
    enough (c * INR K <= tiny (-969)) by lra. unfold c. rewrite Ee.
    replace (3 / 2 * (INR K * (uu * uu * tiny (-969))) * INR K) with (3 / 2 * ((INR K * uu) * (INR K * uu)) * tiny (-969)) by ring.
    assert (0 <= INR K * uu) by (apply Rmult_le_pos; lra). rewrite <- (Rmult_1_l (tiny (-969))) at 2. apply Rmult_le_compat_r; nra. }
  lra.
Qed.

(** ** The tolerance and the gap *)
Lemma ofZ_val z : (Z.abs z < 2 ^ 53)%Z -> is_finite (b64_ofZ z) = true /\ B2R (b64_ofZ z) = IZR z.
Proof.
  intros Hz. unfold b64_ofZ. pose proof (binary_normalize_correct 53 1024 prec64 emax64 mode_NE z 0 false) as H.
  assert (E : @F2R radix2 {| Fnum := z; Fexp := 0 |} = IZR z) by (unfold F2R; cbn; ring).
  rewrite E in H. cbn [round_mode] in H.
  assert (F64 : Valid_exp (SpecFloat.fexp 53 1024)) by (apply FLT_exp_valid; reflexivity).
  assert (G : generic_format radix2 (SpecFloat.fexp 53 1024) (IZR z)).
  { apply (generic_format_FLT radix2 (-1074) 53). exists (Float radix2 z 0); [symmetry; exact E|exact Hz|cbn; lia]. }
  rewrite (round_generic radix2 (SpecFloat.fexp 53 1024) ZnearestE _ G) in H.
  rewrite Rlt_bool_true in H.
  - destruct H as [H1 [H2 _]]. auto.
  - rewrite <- abs_IZR. apply Rlt_trans with (IZR (2 ^ 53)); [apply IZR_lt; exact Hz|].
    change (IZR (2 ^ 53)) with (bpow radix2 53). apply bpow_lt. lia.
Qed.

Definition s3 : b64 := bsqrt (b64_ofZ 3).

Lemma tol_val (t : b64) K : (4 <= K)%nat -> gamma K <= 1 / 2 -> is_finite t = true -> is_finite (b64_div t s3) = true /\
  (0 < B2R (b64_div t s3) -> 0 <= B2R t /\ B2R (b64_div t s3) <= B2R t / sqrt 3 / (1 - gamma K) + eta).
Proof.
  intros HK Hg Ft. assert (F3 : is_finite s3 = true) by (vm_compute; reflexivity).
  destruct (sqrt_val (b64_ofZ 3) F3) as [_ [_ [_ [e [n [He [Hn E]]]]]]]. fold s3 in E.
  assert (E3 : B2R (b64_ofZ 3) = 3) by (apply (ofZ_val 3); reflexivity).
  rewrite E3 in E.
  pose proof uu_pos as U. pose proof eta_pos as E0. 
  assert (Un : eta <= uu) by (apply bpow_le; lia).
  assert (Us : uu <= 1 / 16) by (unfold uu; change (1 / 16) with (1 / IZR (2 ^ 4)); replace (1 / IZR (2 ^ 4)) with (bpow radix2 (-4)) by (cbn; lra); apply bpow_le; lia).
  assert (S1 : 1 <= sqrt 3) by (rewrite <- sqrt_1 at 1; apply sqrt_le_1_alt; lra).
  apply Rabs_le_inv in He. apply Rabs_le_inv in Hn.
  assert (L3 : sqrt 3 * (1 - 2 * uu) <= B2R s3) by nra.
  assert (G3 : 1 <= B2R s3).
  { assert (S15 : 3 / 2 <= sqrt 3) by (rewrite <- (sqrt_square (3 / 2)) by lra; apply sqrt_le_1_alt; lra). nra. }
  pose proof (Bdiv_correct 53 1024 prec64 emax64 mode_NE t s3 ltac:(lra)) as C.
  assert (A : Rabs (rnd (B2R t / B2R s3)) < bpow radix2 1024).
  { eapply Rle_lt_trans; [|apply (abs_B2R_lt_emax 53 1024 t)]. apply abs_round_le_generic; [apply fexp_correct; exact prec64|apply valid_rnd_round_mode|apply generic_format_abs; apply fmt|].
    unfold Rdiv. rewrite Rabs_mult. rewrite <- (Rmult_1_r (Rabs (B2R t))) at 2. apply Rmult_le_compat_l; [apply Rabs_pos|].
    rewrite Rabs_pos_eq by (left; apply Rinv_0_lt_compat; lra). rewrite <- Rinv_1. apply Rinv_le; lra. }
  change (@Bdiv 53 1024 prec64 emax64 mode_NE t s3) with (b64_div t s3) in C. rewrite Rlt_bool_true in C by exact A.
  destruct C as [C1 [C2 _]]. split; [congruence|]. intros P.
  assert (T0 : 0 <= B2R t).
  { destruct (Rle_lt_dec 0 (B2R t)); auto. exfalso. revert P. apply Rle_not_lt. rewrite C1. apply round_le_generic; [apply fexp_correct; exact prec64|apply valid_rnd_round_mode|apply generic_format_0|].
    unfold Rdiv. assert (0 < / B2R s3) by (apply Rinv_0_lt_compat; lra). nra. }
  split; auto. destruct (rnd_any (B2R t / B2R s3)) as [d [h [Hd [Hh E2]]]]. rewrite C1, E2.
  apply Rabs_le_inv in Hd. apply Rabs_le_inv in Hh. apply Rplus_le_compat; [|lra].
  assert (g4 : 4 * uu <= gamma K).
  { unfold gamma. assert (4 <= INR K) by (replace 4 with (INR 4) by (cbn; lra); apply le_INR; lia). nra. }
  set (g := gamma K) in *.
  assert (D0 : 0 <= B2R t / B2R s3) by (apply Rmult_le_pos; [auto|left; apply Rinv_0_lt_compat; lra]).
  apply Rle_trans with (B2R t / B2R s3 * (1 + uu)); [apply Rmult_le_compat_l; lra|].
  unfold Rdiv. rewrite !Rmult_assoc. apply Rmult_le_compat_l; auto.
  apply Rmult_le_reg_r with (B2R s3); [lra|]. replace (/ B2R s3 * (1 + uu) * B2R s3) with (1 + uu) by (field; lra).
  apply Rmult_le_reg_r with (sqrt 3 * (1 - g)); [apply Rmult_lt_0_compat; lra|].
  replace (/ sqrt 3 * / (1 - g) * B2R s3 * (sqrt 3 * (1 - g))) with (B2R s3) by (field; lra).
  eapply Rle_trans; [|exact L3]. replace ((1 + uu) * (sqrt 3 * (1 - g))) with (sqrt 3 * ((1 + uu) * (1 - g))) by ring.
  apply Rmult_le_compat_l; [lra|]. nra.
Qed.

Lemma gap_bound (s z : Z -> b64) (m : Z) (tol : b64) K : (1 <= m)%Z -> (Z.to_nat m + 2 <= K)%nat -> gamma K <= 1 / 2 ->
  is_finite (b64_div (dotF FA s z m) (b64_ofZ m)) = true -> flt FA (b64_div (dotF FA s z m) (b64_ofZ m)) tol = true -> is_finite tol = true ->
  Sum m (fun i => B2R (s i) * B2R (z i)) / IZR m < B2R tol + gamma K * (Sum m (fun i => absB (s i) * absB (z i)) / IZR m) + tiny (-510).
Proof.
  intros Hm HK Hg F Hlt Ft. pose proof uu_pos as U. pose proof eta_pos as E0. pose proof (pos_INR K) as PK.
  assert (Hu : INR K * uu <= 1 / 4) by (unfold gamma in Hg; lra).
  assert (Hm53 : (Z.abs m < 2 ^ 53)%Z).
  { rewrite Z.abs_eq by lia. apply lt_IZR. apply Rle_lt_trans with (INR K); [rewrite INR_IZR_INZ; apply IZR_le; lia|].
    change (IZR (2 ^ 53)) with (bpow radix2 53). apply Rmult_lt_reg_r with uu; auto. replace (bpow radix2 53 * uu) with 1 by (unfold uu; rewrite <- bpow_plus; reflexivity). lra. }
  destruct (ofZ_val m Hm53) as [Fm Em].
  pose proof (dot_apx s z m ltac:(lia)) as A.
  pose proof (apx_div _ _ _ _ _ (b64_ofZ m) A Fm ltac:(rewrite Em; apply IZR_le; lia)) as D. rewrite Em in D.
  pose proof (apx_gamma _ _ _ _ _ K D ltac:(lia) Hg F) as G.
  assert (L : B2R (b64_div (dotF FA s z m) (b64_ofZ m)) < B2R tol).
  { apply (flt_finite _ _ Hlt Ft). intros X. rewrite X in F. discriminate F. }
  apply Rabs_le_inv in G.
  assert (T : 3 / 2 * (INR (Z.to_nat m) * eta + eta) <= tiny (-510)).
  { assert (INR (Z.to_nat m) + 1 <= INR K) by (rewrite <- S_INR; apply le_INR; lia).
    assert (Ee : eta = uu * tiny (-1022)) by (unfold eta, uu, tiny; rewrite <- bpow_plus; reflexivity).
    assert (0 < tiny (-1022)) by apply bpow_gt_0. assert (tiny (-1022) <= tiny (-510)) by (apply bpow_le; lia). rewrite Ee.
    replace (3 / 2 * (INR (Z.to_nat m) * (uu * tiny (-1022)) + uu * tiny (-1022))) with (3 / 2 * ((INR (Z.to_nat m) + 1) * uu) * tiny (-1022)) by ring.
    assert ((INR (Z.to_nat m) + 1) * uu <= INR K * uu) by (apply Rmult_le_compat_r; lra).
    assert (3 / 2 * ((INR (Z.to_nat m) + 1) * uu) * tiny (-1022) <= 1 * tiny (-1022)) by (apply Rmult_le_compat_r; lra). lra. }
  lra.
Qed.

(** With nonnegative finite factors nothing becomes minus infinity. *)
Definition nn (x : b64) : Prop := is_finite x = true /\ 0 <= B2R x \/ x = B754_infinity false.

Lemma nn_cases (x : b64) : nn x -> (exists s, x = B754_zero s) \/ (exists m e H, x = B754_finite false m e H) \/ x = B754_infinity false.
Proof.
  intros [[F P]|E]; [|auto]. destruct x as [s|s| |[] m e H]; try discriminate F; eauto 6.
  exfalso. revert P. apply Rlt_not_le. apply F2R_lt_0. cbn. lia.
Qed.
Lemma SF_pinf (x : b64) : B2SF x = SpecFloat.S754_infinity false -> x = B754_infinity false.
Proof. destruct x; cbn; congruence. Qed.

Lemma nn_add x y : nn x -> nn y -> nn (fadd FA x y).
Proof.
  intros Hx Hy. destruct (nn_cases x Hx) as [[s ->]|[[mx [ex [Hmx ->]]]| ->]], (nn_cases y Hy) as [[s' ->]|[[my [ey [Hmy ->]]]| ->]]; cbn [fadd FA];
    try (right; reflexivity); try exact Hx; try exact Hy.
  - left. destruct s, s'; cbn; split; auto; lra.
  - destruct Hx as [[F1 P1]|C]; [|discriminate C]. destruct Hy as [[F2 P2]|C]; [|discriminate C].
    pose proof (Bplus_correct 53 1024 prec64 emax64 mode_NE _ _ F1 F2) as C. destruct (Rlt_bool _ _).
    + destruct C as [C1 [C2 _]]. left. split; auto. rewrite C1. apply round_ge_generic; [apply fexp_correct; exact prec64|apply valid_rnd_round_mode|apply generic_format_0|lra].
    + destruct C as [C _]. right. apply SF_pinf. exact C.
Qed.
Lemma nn_mul x y : is_finite x = true -> 0 <= B2R x -> is_finite y = true -> 0 <= B2R y -> nn (fmul FA x y).
Proof.
  intros F1 P1 F2 P2. destruct (nn_cases x (or_introl (conj F1 P1))) as [[s ->]|[[mx [ex [Hmx ->]]]| ->]], (nn_cases y (or_introl (conj F2 P2))) as [[s' ->]|[[my [ey [Hmy ->]]]| ->]]; try discriminate;
    try (left; split; [reflexivity|cbn; lra]).
  cbn [fmul FA]. pose proof (Bmult_correct 53 1024 prec64 emax64 mode_NE (B754_finite false mx ex Hmx) (B754_finite false my ey Hmy)) as C. destruct (Rlt_bool _ _).
  - destruct C as [C1 [C2 _]]. left. split; [rewrite C2; reflexivity|]. rewrite C1. apply round_ge_generic; [apply fexp_correct; exact prec64|apply valid_rnd_round_mode|apply generic_format_0|].
    apply Rmult_le_pos; auto.
  - right. apply SF_pinf. exact C.
Qed.
Lemma nn_dot (s z : Z -> b64) m : (forall i, (0 <= i < m)%Z -> is_finite (s i) = true /\ 0 <= B2R (s i)) ->
  (forall i, (0 <= i < m)%Z -> is_finite (z i) = true /\ 0 <= B2R (z i)) -> nn (dotF FA s z m).
Proof.
  intros Hs Hz. unfold dotF. assert (G : forall i, In i (zr 0 m) -> (0 <= i < m)%Z) by (intros i Hi; apply in_zr in Hi; lia).
  assert (N0 : nn (f0 FA)) by (left; split; [reflexivity|cbn; lra]). revert G N0. generalize (zr 0 m) (f0 FA). intros l. induction l as [|i l IH]; intros a G N; [exact N|].
  cbn [fold_left]. apply IH; [intros; apply G; right; auto|]. destruct (Hs i (G i (or_introl eq_refl))), (Hz i (G i (or_introl eq_refl))).
  apply nn_add; auto. apply nn_mul; auto.
Qed.
Lemma nn_gap (d : b64) m : nn d -> (1 <= m)%Z -> (Z.abs m < 2 ^ 53)%Z -> b64_div d (b64_ofZ m) <> B754_infinity true.
Proof.
  intros N Hm Hm53 X. destruct (ofZ_val m Hm53) as [Fm Em]. assert (Pm : 0 < B2R (b64_ofZ m)) by (rewrite Em; apply IZR_lt; lia).
  destruct (nn_cases (b64_ofZ m) (or_introl (conj Fm (Rlt_le _ _ Pm)))) as [[s E]|[[mx [ex [Hmx E]]]|E]]; rewrite E in *; try discriminate; [cbn in Pm; lra|].
  pose proof (Bdiv_correct 53 1024 prec64 emax64 mode_NE d (B754_finite false mx ex Hmx) ltac:(lra)) as C.
  destruct (nn_cases d N) as [[s ->]|[[md [ed [Hmd ->]]]| ->]]; [discriminate X| |discriminate X].
  change (b64_div (B754_finite false md ed Hmd) (B754_finite false mx ex Hmx)) with (@Bdiv 53 1024 prec64 emax64 mode_NE (B754_finite false md ed Hmd) (B754_finite false mx ex Hmx)) in X.
  rewrite X in C. destruct (Rlt_bool _ _); [destruct C as [_ [C _]]; discriminate C|discriminate C].
Qed.
