(** C54: what exit code 0 guarantees in binary64.  The residuals the solver tests are rounded; the theorem bounds the
    residuals of the mathematical problem at the returned point, with explicit constants. *)
From Coq Require Import ZArith Reals List Lia Lra Bool.
From RecordUpdate Require Import RecordUpdate.
From Flocq Require Import Core BinarySingleNaN.
From Verif Require Import Res Partial Arith Lists MSparse Csc SemVec Flat TransposeProofs KktProofs MLdl LdlSym LdlNum LdlR
  LdlFun MSolver VecOps Iter SafeInst Setup Session Spec SpecLink QpSpec NewtonR PointR Api P2_Kkt P4_Always P5_Session P6_Codes Demo Round.
Import ListNotations.
Open Scope Z_scope.

(** ** Specification *)

(** The same arguments with every number replaced. *)
Definition map_arr {F G} (f : F -> G) (a : arr F) : arr G := map (option_map f) a.
Definition user_map {F G} (f : F -> G) (u : user F) : user G :=
  mkUser (u_n u) (u_m u) (u_p u) (u_Pjc u) (u_Pir u) (map_arr f (u_Ppr u)) (u_Ajc u) (u_Air u) (option_map (map_arr f) (u_Apr u))
    (u_Gjc u) (u_Gir u) (map_arr f (u_Gpr u)) (map_arr f (u_c u)) (map_arr f (u_h u)) (option_map (map_arr f) (u_b u))
    (f (u_sigma_d u)) (u_perm u).

(** The problem the doubles describe, and the one with all numbers replaced by their magnitudes. *)
Definition exact_qp (u : user b64) : QPdata := user_qp (@user_map b64 R B2R u).
Definition size_qp (u : user b64) : QPdata := user_qp (@user_map b64 R (fun x => Rabs (B2R x)) u).

(** The numbers in the returned handle. *)
Definition vec_of (a : arr b64) (i : Z) : R := B2R (@get b64 B754_nan a i).

Section Weights.
Variable Q : QPdata.
Open Scope R_scope.
(** Size of the terms that are added up in each residual. *)
Definition w_dual (x y z : Z -> R) (j : Z) : R :=
  Sum (dn Q) (fun k => dP Q j k * Rabs (x k)) + Sum (dm Q) (fun i => dG Q i j * Rabs (z i))
  + Sum (dp Q) (fun i => dA Q i j * Rabs (y i)) + dc Q j.
Definition w_eq (x : Z -> R) (i : Z) : R := db Q i + Sum (dn Q) (fun j => dA Q i j * Rabs (x j)).
Definition w_in (x s : Z -> R) (i : Z) : R := dh Q i + Rabs (s i) + Sum (dn Q) (fun j => dG Q i j * Rabs (x j)).
End Weights.

(** A bound on the number of operations in each sum, and the relative error of so many roundings. *)
Definition operations {F} (u : user F) : Z :=
  get 0 (u_Pjc u) (u_n u) + get 0 (u_Gjc u) (u_n u) + match u_eqs u with Some (ajc, _, _, _) => get 0 ajc (u_n u) | None => 0 end
  + u_n u + u_m u + u_pe u + 4.
Definition gam {F} (u : user F) : R := (IZR (operations u) * bpow radix2 (-52))%R.

(** ** The residuals at a point *)
Definition mapB (f : b64 -> R) (B : prob b64) : prob R :=
  mkProb RA (pn B) (pm B) (pp B) (mapc f (pP B)) (mapc f (pA B)) (mapc f (pG B)) (fun i => f (pc B i)) (fun i => f (pb B i)) (fun i => f (ph B i))
    (f (psd B)) (pPf B) (pQf B) (ppar B).

Lemma one_val : B2R (f1 FA) = 1%R.
Proof. apply (ofZ_val 1). reflexivity. Qed.

Section Resid.
Variable B : prob b64.
Variable pt : point FA.
Notation n := (pn B).
Notation m := (pm B).
Notation p := (pp B).
Hypothesis Hn : 0 <= n.
Hypothesis Hm : 1 <= m.
Hypothesis Hp : 0 <= p.
Hypothesis HG : rows_in m n (pG B).
Hypothesis HA : rows_in p n (pA B).
Variable K : nat.
Hypothesis HK : start (pP B) n + start (pG B) n + start (pA B) n + n + m + p + 4 <= Z.of_nat K.
Notation Q := (qp_of (mapB B2R B)).
Notation Qa := (qp_of (mapB absB B)).
Notation x := (fun i => B2R (ptX FA pt i)).
Notation y := (fun i => B2R (ptY FA pt i)).
Notation z := (fun i => B2R (ptZ FA pt i)).
Notation s := (fun i => B2R (ptS FA pt i)).

Lemma col_len (col : cols b64) j : 0 <= j < n -> Z.of_nat (length (col j)) <= start col n.
Proof.
  intros Hj. pose proof (start_succ col j ltac:(lia)). pose proof (start_mono col (j + 1) n ltac:(lia)). pose proof (start_nonneg col j).
  unfold zlen in *. lia.
Qed.

Lemma INR_le k : (k <= K)%nat -> (INR k * eta <= INR K * eta)%R.
Proof. intros H. apply Rmult_le_compat_r; [left; apply eta_pos|apply le_INR; auto]. Qed.

Ltac sums_in H :=
  unfold vals, sizes in H;
  change (fun t : b64 * b64 => (Rabs (B2R (fst t)) * Rabs (B2R (snd t)))%R) with (fun t : b64 * b64 => (absB (fst t) * absB (snd t))%R) in H.

Lemma mult_apx col N v i k w e a t : (1 <= k)%nat -> apx k w e a t ->
  apx (k + length (mult_terms col N v i)) (w + Sum N (fun j => ent (mapc absB col j) i * absB (v j)))%R
    (e + INR (length (mult_terms col N v i)) * eta)%R (multF FA col N v i a) (t - Sum N (fun j => ent (mapc B2R col j) i * B2R (v j)))%R.
Proof.
  intros Hk H. rewrite multF_terms. pose proof (foldm_apx (mult_terms col N v i) k w e a t Hk H) as X. sums_in X.
  rewrite (mult_sum absB absB), (mult_sum B2R B2R) in X. exact X.
Qed.
Lemma tmult_apx col M v j k w e a t : (forall r c, In (r, c) (col j) -> 0 <= r < M) -> (1 <= k)%nat -> apx k w e a t ->
  apx (k + length (col j)) (w + Sum M (fun i => ent (mapc absB col j) i * absB (v i)))%R
    (e + INR (length (col j)) * eta)%R (tmultF FA col v j a) (t - Sum M (fun i => ent (mapc B2R col j) i * B2R (v i)))%R.
Proof.
  intros Hr Hk H. rewrite tmultF_terms. pose proof (foldm_apx (tmult_terms col v j) k w e a t Hk H) as X. sums_in X.
  rewrite (tmult_sum absB absB col M), (tmult_sum B2R B2R col M) in X by exact Hr. unfold tmult_terms in X at 1 2. rewrite map_length in X. exact X.
Qed.

Lemma rx_apx j : 0 <= j < n -> apx K (w_dual Qa x y z j) (INR K * eta)%R (rxF FA B pt j) (res_dual Q x y z j).
Proof.
  intros Hj. unfold rxF, axpyF.
  pose proof (mult_apx (pP B) n (ptX FA pt) j 1 0 0 _ 0 ltac:(lia) apx_zero) as H1.
  pose proof (tmult_apx (pG B) m (ptZ FA pt) j _ _ _ _ _ (fun r c => HG j r c Hj) (Nat.le_add_r 1 _) H1) as H2.
  pose proof (mult_terms_len (pP B) n (ptX FA pt) j) as L1. pose proof (col_len (pG B) j Hj) as L2.
  pose proof (col_len (pA B) j Hj) as L3.
  set (l1 := length (mult_terms (pP B) n (ptX FA pt) j)) in *. set (l2 := length (pG B j)) in *. set (l3 := length (pA B j)) in *.
  assert (H3 : apx (1 + l1 + l2 + l3)
    (0 + Sum n (fun k => ent (mapc absB (pP B) k) j * absB (ptX FA pt k)) + Sum m (fun i => ent (mapc absB (pG B) j) i * absB (ptZ FA pt i))
      + Sum p (fun i => ent (mapc absB (pA B) j) i * absB (ptY FA pt i)))%R
    (0 + INR l1 * eta + INR l2 * eta + INR l3 * eta)%R
    (let a := tmultF FA (pG B) (ptZ FA pt) j (multF FA (pP B) n (ptX FA pt) j (f0 FA)) in if p =? 0 then a else tmultF FA (pA B) (ptY FA pt) j a)
    (0 - Sum n (fun k => ent (mapc B2R (pP B) k) j * B2R (ptX FA pt k)) - Sum m (fun i => ent (mapc B2R (pG B) j) i * B2R (ptZ FA pt i))
      - Sum p (fun i => ent (mapc B2R (pA B) j) i * B2R (ptY FA pt i)))%R).
  { cbv zeta. destruct (Z.eqb_spec p 0) as [E|E].
    - rewrite E. unfold Sum at 3 6. rewrite zr_nil by lia. cbn [sumr]. rewrite Rplus_0_r, Rminus_0_r.
      eapply apx_mono; [exact H2|lia|lra|]. pose proof eta_pos. pose proof (pos_INR l3). nra.
    - exact (tmult_apx (pA B) p (ptY FA pt) j (1 + l1 + l2)%nat _ _ _ _ (fun r c => HA j r c Hj) ltac:(lia) H2). }
  pose proof (apx_mul (pc B j) (fopp FA (f1 FA))) as H4.
  assert (O1 : B2R (fopp FA (f1 FA)) = (-1)%R) by (cbn [fopp FA]; rewrite B2R_Bopp, one_val; lra).
  rewrite O1 in H4. rewrite (Rabs_left (-1)) in H4 by lra.
  pose proof (apx_mono _ _ _ _ _ (1 + l1 + l2 + l3)%nat _ _ H4 ltac:(lia) (Rle_refl _) (Rle_refl _)) as H5.
  pose proof (apx_add _ _ _ _ _ _ _ _ _ H3 H5) as H6. clear H1 H2 H3 H4 H5.
  unfold w_dual, res_dual. cbn [qp_of mapB dn dm dp dP dA dG dc db dh pn pm pp pP pA pG pc pb ph].
  replace (- Sum n (fun k => ent (mapc B2R (pP B) k) j * x k) - Sum m (fun i => ent (mapc B2R (pG B) j) i * z i) -
           Sum p (fun i => ent (mapc B2R (pA B) j) i * y i) - B2R (pc B j))%R
    with (0 - Sum n (fun k => ent (mapc B2R (pP B) k) j * x k) - Sum m (fun i => ent (mapc B2R (pG B) j) i * z i)
      - Sum p (fun i => ent (mapc B2R (pA B) j) i * y i) + B2R (pc B j) * -1)%R by ring.
  eapply apx_mono; [exact H6|lia| |].
  - unfold absB. lra.
  - pose proof eta_pos. pose proof (INR_le (l1 + l2 + l3 + 1) ltac:(lia)) as I. rewrite !plus_INR in I. cbn [INR] in I. lra.
Qed.

Lemma ry_apx i : apx K (w_eq Qa x i) (INR K * eta)%R (ryF FA B pt i) (res_eq Q x i).
Proof.
  unfold ryF, axpyF.
  pose proof (mult_apx (pA B) n (ptX FA pt) i 1 0 0 _ 0 ltac:(lia) apx_zero) as H1.
  pose proof (mult_terms_len (pA B) n (ptX FA pt) i) as L1. pose proof (start_nonneg (pP B) n). pose proof (start_nonneg (pG B) n).
  set (l1 := length (mult_terms (pA B) n (ptX FA pt) i)) in *.
  pose proof (apx_mul (pb B i) (f1 FA)) as H4. rewrite one_val in H4. rewrite Rabs_R1 in H4.
  pose proof (apx_mono _ _ _ _ _ (1 + l1)%nat _ _ H4 ltac:(lia) (Rle_refl _) (Rle_refl _)) as H5.
  pose proof (apx_add _ _ _ _ _ _ _ _ _ H1 H5) as H6. clear H1 H4 H5.
  unfold w_eq, res_eq. cbn [qp_of mapB dn dm dp dP dA dG dc db dh pn pm pp pP pA pG pc pb ph].
  replace (B2R (pb B i) - Sum n (fun j => ent (mapc B2R (pA B) j) i * x j))%R
    with (0 - Sum n (fun j => ent (mapc B2R (pA B) j) i * x j) + B2R (pb B i) * 1)%R by ring.
  eapply apx_mono; [exact H6|lia| |].
  - unfold absB. lra.
  - pose proof eta_pos. pose proof (INR_le (l1 + 1) ltac:(lia)) as I. rewrite !plus_INR in I. cbn [INR] in I. lra.
Qed.

Lemma rz_apx i : apx K (w_in Qa x s i) (INR K * eta)%R (rzF FA B pt i) (res_in Q x s i).
Proof.
  unfold rzF.
  pose proof (mult_apx (pG B) n (ptX FA pt) i 1 0 0 _ 0 ltac:(lia) apx_zero) as H1.
  pose proof (mult_terms_len (pG B) n (ptX FA pt) i) as L1. pose proof (start_nonneg (pP B) n). pose proof (start_nonneg (pA B) n).
  set (l1 := length (mult_terms (pG B) n (ptX FA pt) i)) in *.
  pose proof (apx_sub _ _ _ _ _ _ _ _ _ (apx_exact (ph B i)) (apx_exact (ptS FA pt i))) as H4.
  pose proof (apx_mono _ _ _ _ _ (1 + l1)%nat _ _ H4 ltac:(lia) (Rle_refl _) (Rle_refl _)) as H5.
  pose proof (apx_add _ _ _ _ _ _ _ _ _ H1 H5) as H6. clear H1 H4 H5.
  unfold w_in, res_in. cbn [qp_of mapB dn dm dp dP dA dG dc db dh pn pm pp pP pA pG pc pb ph].
  replace (B2R (ph B i) - B2R (ptS FA pt i) - Sum n (fun j => ent (mapc B2R (pG B) j) i * x j))%R
    with (0 - Sum n (fun j => ent (mapc B2R (pG B) j) i * x j) + (B2R (ph B i) - B2R (ptS FA pt i)))%R by ring.
  eapply apx_mono; [exact H6|lia| |].
  - unfold absB. lra.
  - pose proof eta_pos. pose proof (INR_le l1 ltac:(lia)) as I. lra.
Qed.

End Resid.

(** ** The stopping test *)
Section Stop.
Variable B : prob b64.
Variable pt : point FA.
Notation n := (pn B).
Notation m := (pm B).
Notation p := (pp B).
Hypothesis Hn : 0 <= n.
Hypothesis Hm : 1 <= m.
Hypothesis Hp : 0 <= p.
Hypothesis HP : rows_in n n (pP B).
Hypothesis HG : rows_in m n (pG B).
Hypothesis HA : rows_in p n (pA B).
Variable K : nat.
Hypothesis HK : start (pP B) n + start (pG B) n + start (pA B) n + n + m + p + 4 <= Z.of_nat K.
Hypothesis Hg : (gamma K <= 1 / 2)%R.
Variable o : settings b64.
Hypothesis Fr : is_finite (reltol o) = true.
Hypothesis Fa : is_finite (abstol o) = true.
Hypothesis Hst : stopF FA B pt o = true.
Notation Q := (qp_of (mapB B2R B)).
Notation Qa := (qp_of (mapB absB B)).
Notation x := (fun i => B2R (ptX FA pt i)).
Notation y := (fun i => B2R (ptY FA pt i)).
Notation z := (fun i => B2R (ptZ FA pt i)).
Notation s := (fun i => B2R (ptS FA pt i)).
Notation g := (gamma K).

Lemma counts : 0 <= start (pP B) n /\ 0 <= start (pG B) n /\ 0 <= start (pA B) n.
Proof. split; [|split]; apply start_nonneg. Qed.

Lemma stop_parts : flt FA (bsqrt (dotF FA (rxF FA B pt) (rxF FA B pt) n)) (b64_div (reltol o) s3) = true /\
  flt FA (bsqrt (dotF FA (rzF FA B pt) (rzF FA B pt) m)) (b64_div (reltol o) s3) = true /\
  (p <> 0 -> flt FA (bsqrt (dotF FA (ryF FA B pt) (ryF FA B pt) p)) (b64_div (reltol o) s3) = true) /\
  flt FA (nmuF FA B pt) (abstol o) = true.
Proof.
  unfold stopF in Hst. change (@pp (car FA) B) with (@pp b64 B) in Hst. apply andb_true_iff in Hst. destruct Hst as [H Hc]. apply andb_true_iff in H. destruct H as [H Hd].
  apply andb_true_iff in H. destruct H as [Hx Hz]. split; [exact Hx|split; [exact Hz|split; [|exact Hc]]].
  intros E. destruct (Z.eqb_spec p 0); [contradiction|exact Hd].
Qed.

Definition tolK : R := ((B2R (reltol o) / sqrt 3 + tiny (-508)) / ((1 - g) * (1 - g) * (1 - g)))%R.

Lemma K4 : (4 <= K)%nat.
Proof. pose proof counts. lia. Qed.
Lemma g_pos : (0 < g)%R.
Proof. unfold gamma. pose proof uu_pos. pose proof K4 as H4. apply le_INR in H4. cbn [INR] in H4. assert (0 < INR K * uu)%R by (apply Rmult_lt_0_compat; lra). lra. Qed.

Lemma with_tol v r w k : 0 <= k -> k + 1 <= Z.of_nat K -> (forall i, 0 <= i < k -> apx K (w i) (INR K * eta)%R (v i) (r i)) ->
  flt FA (bsqrt (dotF FA v v k)) (b64_div (reltol o) s3) = true ->
  (Euclid r k <= tolK + g * Euclid w k)%R /\ (0 <= B2R (reltol o))%R.
Proof.
  intros Hk Hk1 Ha Hlt. destruct (tol_val (reltol o) K K4 Hg Fr) as [Ft Hv].
  destruct (resid_bound v r w k _ K Hk ltac:(lia) Hg Ha Hlt Ft) as [P R]. destruct (Hv P) as [T0 T1]. split; auto.
  eapply Rle_trans; [exact R|]. set (t := B2R (b64_div (reltol o) s3)) in *. set (d := (B2R (reltol o) / sqrt 3)%R) in *.
  pose proof g_pos as G0. unfold tolK. fold d.
  assert (D0 : (0 <= d)%R) by (apply Rmult_le_pos; [auto|left; apply Rinv_0_lt_compat; apply sqrt_lt_R0; lra]).
  assert (T5 : (tiny (-510) = / 4 * tiny (-508))%R) by (unfold tiny; change (-510) with (-2 + -508); rewrite bpow_plus; reflexivity).
  assert (T8 : (0 < tiny (-508))%R) by apply bpow_gt_0. assert (T9 : (eta <= tiny (-510))%R) by (apply bpow_le; lia).
  set (h := (1 - g)%R) in *. assert (Hh : (0 < h < 1)%R) by (unfold h; lra). assert (Ih : (1 <= / h)%R) by (rewrite <- Rinv_1; apply Rinv_le; lra).
  assert (I2 : (1 <= / h * / h)%R) by nra.
  assert (I3 : (/ h * / h <= / h * / h * / h)%R) by nra.
  replace ((d + tiny (-508)) / (h * h * h))%R with ((d + tiny (-508)) * (/ h * / h * / h))%R by (field; lra).
  replace ((t + tiny (-510)) / (h * h))%R with ((t + tiny (-510)) * (/ h * / h))%R by (field; lra).
  replace (d / h)%R with (d * / h)%R in T1 by (field; lra).
  set (a := (/ h)%R) in *. set (b := (a * a)%R) in *. set (e := tiny (-508)) in *.
  assert ((t + tiny (-510)) * b <= (d * a + / 2 * e) * b)%R by (apply Rmult_le_compat_r; lra).
  assert ((/ 2 * e) * b <= / 2 * e * (b * a))%R by (apply Rmult_le_compat_l; lra).
  assert (e * 1 <= e * (b * a))%R by (apply Rmult_le_compat_l; lra). lra.
Qed.

Lemma stop_bounds : (0 <= B2R (reltol o))%R /\
  (Euclid (res_dual Q x y z) n <= tolK + g * Euclid (w_dual Qa x y z) n)%R /\
  (Euclid (res_in Q x s) m <= tolK + g * Euclid (w_in Qa x s) m)%R /\
  (p <> 0 -> (Euclid (res_eq Q x) p <= tolK + g * Euclid (w_eq Qa x) p)%R) /\
  (is_finite (nmuF FA B pt) = true -> (gap Q s z < B2R (abstol o) + g * (gap Q (fun i => absB (ptS FA pt i)) (fun i => absB (ptZ FA pt i))) + tiny (-510))%R) /\
  ((forall i, 0 <= i < m -> is_finite (ptS FA pt i) = true /\ (0 <= B2R (ptS FA pt i))%R) ->
   (forall i, 0 <= i < m -> is_finite (ptZ FA pt i) = true /\ (0 <= B2R (ptZ FA pt i))%R) -> is_finite (nmuF FA B pt) = true).
Proof.
  destruct stop_parts as [S1 [S2 [S3 S4]]]. pose proof counts as C.
  destruct (with_tol (rxF FA B pt) (res_dual Q x y z) (w_dual Qa x y z) n Hn ltac:(lia)) as [R1 R0]; auto.
  { intros i Hi. apply rx_apx; auto. }
  destruct (with_tol (rzF FA B pt) (res_in Q x s) (w_in Qa x s) m ltac:(lia) ltac:(lia)) as [R2 _]; auto.
  { intros i Hi. apply rz_apx; auto. }
  split; auto. split; [exact R1|]. split; [exact R2|]. split; [|split].
  - intros E. apply (with_tol (ryF FA B pt) (res_eq Q x) (w_eq Qa x) p Hp ltac:(lia)); auto. intros i Hi. apply ry_apx; auto.
  - intros F. apply (gap_bound (ptS FA pt) (ptZ FA pt) m (abstol o) K); auto. lia.
  - intros Hs Hz. destruct (flt_finite _ _ S4 Fa) as [F _]; [|exact F].
    assert (Hu : (INR K * uu <= 1 / 4)%R) by (unfold gamma in Hg; lra).
    apply (nn_gap (dotF FA (ptS FA pt) (ptZ FA pt) m) m); [apply nn_dot; auto|auto|].
    rewrite Z.abs_eq by lia. apply lt_IZR. apply Rle_lt_trans with (INR K); [rewrite INR_IZR_INZ; apply IZR_le; lia|].
    change (IZR (2 ^ 53)) with (bpow radix2 53). apply Rmult_lt_reg_r with uu; [apply uu_pos|]. replace (bpow radix2 53 * uu)%R with 1%R by (unfold uu; rewrite <- bpow_plus; reflexivity). lra.
Qed.

(** Everything that enters the residuals is finite. *)
Lemma stop_finite :
  (forall i j v, 0 <= j < n -> In (i, v) (pP B j) -> is_finite v = true /\ is_finite (ptX FA pt j) = true) /\
  (forall i j v, 0 <= j < n -> In (i, v) (pG B j) -> is_finite v = true /\ is_finite (ptX FA pt j) = true /\ is_finite (ptZ FA pt i) = true) /\
  (p <> 0 -> forall i j v, 0 <= j < n -> In (i, v) (pA B j) -> is_finite v = true /\ is_finite (ptX FA pt j) = true /\ is_finite (ptY FA pt i) = true) /\
  (forall j, 0 <= j < n -> is_finite (pc B j) = true) /\
  (forall i, 0 <= i < m -> is_finite (ph B i) = true /\ is_finite (ptS FA pt i) = true) /\
  (p <> 0 -> forall i, 0 <= i < p -> is_finite (pb B i) = true).
Proof.
  destruct stop_parts as [S1 [S2 [S3 S4]]]. pose proof counts as C. destruct (tol_val (reltol o) K K4 Hg Fr) as [Ft _].
  destruct (norm_bound _ _ _ K Hn ltac:(lia) Hg S1 Ft) as [F1 _].
  destruct (norm_bound (rzF FA B pt) m _ K ltac:(lia) ltac:(lia) Hg S2 Ft) as [F2 _].
  assert (X : forall (col : cols b64) i j v, 0 <= j < n -> In (i, v) (col j) -> In (ptX FA pt j, v) (mult_terms col n (ptX FA pt) i)).
  { intros col i j v Hj Hin. unfold mult_terms. apply in_flat_map. exists j. split; [apply in_zr; lia|]. apply in_map_iff. exists (i, v). split; auto.
    apply filter_In. split; auto. cbn [fst]. apply Z.eqb_refl. }
  assert (T : forall (col : cols b64) w i j v, In (i, v) (col j) -> In (v, w i) (tmult_terms col w j)).
  { intros col w i j v Hin. unfold tmult_terms. apply in_map_iff. exists (i, v). auto. }
  assert (RX : forall j, 0 <= j < n -> 
     is_finite (tmultF FA (pG B) (ptZ FA pt) j (multF FA (pP B) n (ptX FA pt) j (f0 FA))) = true /\
     (p <> 0 -> is_finite (tmultF FA (pA B) (ptY FA pt) j (tmultF FA (pG B) (ptZ FA pt) j (multF FA (pP B) n (ptX FA pt) j (f0 FA)))) = true) /\ is_finite (pc B j) = true).
  { intros j Hj. specialize (F1 j Hj). unfold rxF, axpyF in F1. change (@pp (car FA) B) with (@pp b64 B) in F1. destruct (add_fin _ _ F1) as [G1 G2]. destruct (mul_fin _ _ G2) as [G3 _].
    destruct (Z.eqb_spec p 0) as [E|E]; [split; [exact G1|split; [congruence|exact G3]]|].
    split; [|split; [intros _; exact G1|exact G3]]. rewrite tmultF_terms in G1. apply (foldm_fin _ _ G1). }
  assert (RZ : forall i, 0 <= i < m -> is_finite (multF FA (pG B) n (ptX FA pt) i (f0 FA)) = true /\ is_finite (ph B i) = true /\ is_finite (ptS FA pt i) = true).
  { intros i Hi. specialize (F2 i Hi). unfold rzF in F2. destruct (add_fin _ _ F2) as [G1 G2]. destruct (sub_fin _ _ G2). auto. }
  split; [|split; [|split; [|split; [|split]]]].
  - intros i j v Hj Hin. destruct (RX i (HP j i v Hj Hin)) as [G _]. rewrite tmultF_terms in G. destruct (foldm_fin _ _ G) as [G' _].
    rewrite multF_terms in G'. destruct (foldm_fin _ _ G') as [_ G2]. specialize (G2 _ (X (pP B) i j v Hj Hin)). cbn [fst snd] in G2. tauto.
  - intros i j v Hj Hin. destruct (RX j Hj) as [G _]. rewrite tmultF_terms in G. destruct (foldm_fin _ _ G) as [_ G1].
    specialize (G1 _ (T (pG B) (ptZ FA pt) i j v Hin)). destruct (RZ i (HG j i v Hj Hin)) as [G' _]. rewrite multF_terms in G'. destruct (foldm_fin _ _ G') as [_ G2].
    specialize (G2 _ (X (pG B) i j v Hj Hin)). cbn [fst snd] in *. tauto.
  - intros E i j v Hj Hin. destruct (RX j Hj) as [_ [G _]]. specialize (G E). rewrite tmultF_terms in G. destruct (foldm_fin _ _ G) as [_ G1].
    specialize (G1 _ (T (pA B) (ptY FA pt) i j v Hin)). destruct (norm_bound _ _ _ K Hp ltac:(lia) Hg (S3 E) Ft) as [F3 _].
    specialize (F3 i (HA j i v Hj Hin)). unfold ryF, axpyF in F3. destruct (add_fin _ _ F3) as [G' _]. rewrite multF_terms in G'. destruct (foldm_fin _ _ G') as [_ G2].
    specialize (G2 _ (X (pA B) i j v Hj Hin)). cbn [fst snd] in *. tauto.
  - intros j Hj. apply (RX j Hj).
  - intros i Hi. apply (RZ i Hi).
  - intros E i Hi. destruct (norm_bound _ _ _ K Hp ltac:(lia) Hg (S3 E) Ft) as [F3 _]. specialize (F3 i Hi). unfold ryF, axpyF in F3.
    destruct (add_fin _ _ F3) as [_ G']. apply (mul_fin _ _ G').
Qed.
End Stop.

(** ** The user's arrays *)
Lemma get_map {F G} (f : F -> G) d (a : arr F) i : get (f d) (map_arr f a) i = f (get d a i).
Proof.
  unfold get, rd, map_arr. destruct (i <? 0); [reflexivity|]. rewrite nth_error_map. destruct (nth_error a (Z.to_nat i)) as [[v|]|]; reflexivity.
Qed.
Lemma column_map {G} (f : b64 -> G) d Jc Ir (Pr : arr b64) j : column (f d) Jc Ir (map_arr f Pr) j = map (fun e => (fst e, f (snd e))) (column d Jc Ir Pr j).
Proof. unfold column. rewrite map_map. apply map_ext. intros k. cbn [fst snd]. rewrite get_map. reflexivity. Qed.

Lemma mapped_qp (f : b64 -> R) u Pf Qf par : f (f0 FA) = 0%R -> qp_of (mapB f (prob_of FA u Pf Qf par)) = user_qp (user_map f u).
Proof.
  intros F0. assert (E : forall Jc Ir (Pr : arr b64), (fun i j => ent (mapc f (column (f0 FA) Jc Ir Pr) j) i) = mat_entry Jc Ir (map_arr f Pr)).
  { intros. apply FunctionalExtensionality.functional_extensionality. intros i. apply FunctionalExtensionality.functional_extensionality. intros j.
    unfold mat_entry, ent, mapc. rewrite <- F0, column_map. reflexivity. }
  assert (V : forall a : arr b64, (fun i => f (get (f0 FA) a i)) = get 0%R (map_arr f a)).
  { intros a. apply FunctionalExtensionality.functional_extensionality. intros i. rewrite <- F0, get_map. reflexivity. }
  unfold user_qp, qp_of, mapB, prob_of, u_acol, u_bv, u_pe, u_eqs, user_map. cbn [car FA u_n u_m u_p u_Pjc u_Pir u_Ppr u_Ajc u_Air u_Apr u_Gjc u_Gir u_Gpr u_c u_h u_b u_sigma_d u_perm pn pm pp pP pA pG pc pb ph].
  change (car FA) with b64 in *. 
  destruct (u_Apr u) as [apr|], (u_Ajc u) as [ajc|], (u_Air u) as [air|], (u_b u) as [bb|]; cbn [option_map];
    try destruct (u_p u =? 0); rewrite ?E, ?V; try reflexivity; rewrite ?F0; f_equal; try reflexivity.
Qed.

(** ** C54 *)

(** Residuals below [t] up to a relative error [g] in the terms that are added up. *)
Record near_kkt (Q W : QPdata) (t g : R) (x y z s : Z -> R) : Prop := mkNear {
  nk_dual : (Euclid (res_dual Q x y z) (dn Q) <= t + g * Euclid (w_dual W x y z) (dn Q))%R;
  nk_in : (Euclid (res_in Q x s) (dm Q) <= t + g * Euclid (w_in W x s) (dm Q))%R;
  nk_eq : dp Q <> 0 -> (Euclid (res_eq Q x) (dp Q) <= t + g * Euclid (w_eq W x) (dp Q))%R
}.

(** Every number the caller supplied that belongs to the problem is finite. *)
Definition finite_data (u : user b64) : Prop :=
  (forall i j v, 0 <= j < u_n u -> stored (u_Pjc u) (u_Pir u) (u_Ppr u) i j v -> is_finite v = true) /\
  (forall i j v, 0 <= j < u_n u -> stored (u_Gjc u) (u_Gir u) (u_Gpr u) i j v -> is_finite v = true) /\
  (forall j v, 0 <= j < u_n u -> rd (u_c u) j = Ok v -> is_finite v = true) /\
  (forall i v, 0 <= i < u_m u -> rd (u_h u) i = Ok v -> is_finite v = true) /\
  (forall ajc air apr bb, u_eqs u = Some (ajc, air, apr, bb) ->
    (forall i j v, 0 <= j < u_n u -> stored ajc air apr i j v -> is_finite v = true) /\
    (forall i v, 0 <= i < u_p u -> rd bb i = Ok v -> is_finite v = true)).

(** Nonnegative doubles. *)
Definition nonneg_vec (a : arr b64) (k : Z) : Prop := forall i, 0 <= i < k -> exists v, rd a i = Ok v /\ is_finite v = true /\ (0 <= B2R v)%R.

(** The tolerance that is met, for the caller's tolerance [r]. *)
Definition met (u : user b64) (r : R) : R := ((r / sqrt 3 + bpow radix2 (-508)) / ((1 - gam u) * (1 - gam u) * (1 - gam u)))%R.

Section Ext.
Variable W : QPdata.
Lemma w_dual_ext x x' y y' z z' j : eq_on (dn W) x x' -> eq_on (dp W) y y' -> eq_on (dm W) z z' -> w_dual W x y z j = w_dual W x' y' z' j.
Proof.
  intros H1 H2 H3. unfold w_dual. rewrite (Sum_ext (dn W) _ (fun k => (dP W j k * Rabs (x' k))%R)) by (intros; rewrite H1 by auto; reflexivity).
  rewrite (Sum_ext (dm W) _ (fun k => (dG W k j * Rabs (z' k))%R)) by (intros; rewrite H3 by auto; reflexivity).
  rewrite (Sum_ext (dp W) _ (fun k => (dA W k j * Rabs (y' k))%R)) by (intros; rewrite H2 by auto; reflexivity). reflexivity.
Qed.
Lemma w_eq_ext x x' i : eq_on (dn W) x x' -> w_eq W x i = w_eq W x' i.
Proof. intros H1. unfold w_eq. rewrite (Sum_ext (dn W) _ (fun k => (dA W i k * Rabs (x' k))%R)) by (intros; rewrite H1 by auto; reflexivity). reflexivity. Qed.
Lemma w_in_ext x x' s s' i : eq_on (dn W) x x' -> eq_on (dm W) s s' -> 0 <= i < dm W -> w_in W x s i = w_in W x' s' i.
Proof. intros H1 H2 Hi. unfold w_in. rewrite (Sum_ext (dn W) _ (fun k => (dG W i k * Rabs (x' k))%R)) by (intros; rewrite H1 by auto; reflexivity). rewrite H2 by auto. reflexivity. Qed.
End Ext.

Lemma vec_pt (a : arr b64) k f : is_vec a k f -> eq_on k (vec_of a) (fun i => B2R (f i)).
Proof. intros [_ H] i Hi. unfold vec_of, get. rewrite H by auto. reflexivity. Qed.

Lemma fin_get (a : arr b64) j v d : rd a j = Ok v -> is_finite (get d a j) = true -> is_finite v = true.
Proof. intros H. unfold get. rewrite H. auto. Qed.

(** What the test, passed at the point of the handle, says about that point. *)
Definition test_says (u : user b64) (o : settings b64) (q : qp b64) : Prop :=
  let x := vec_of (q_x q) in let y := vec_of (q_y q) in let z := vec_of (q_z q) in let s := vec_of (q_s q) in
  (0 < gam u <= 1 / 2)%R /\ finite_data u /\ (0 <= B2R (reltol o))%R /\
  near_kkt (exact_qp u) (size_qp u) (met u (B2R (reltol o))) (gam u) x y z s /\
  (forall i, 0 <= i < u_m u -> is_finite (get B754_nan (q_s q) i) = true) /\
  exists mu, n_mu (q_stats q) = Some mu /\
    (nonneg_vec (q_s q) (u_m u) -> nonneg_vec (q_z q) (u_m u) -> is_finite mu = true) /\
    (is_finite mu = true -> (gap (exact_qp u) s z < B2R (abstol o) + gam u * gap (exact_qp u) (fun i => Rabs (s i)) (fun i => Rabs (z i)) + bpow radix2 (-510))%R).

Lemma test_binary64 amd u l o codes q : valid_user amd u -> quiet_calls FA u l ->
  operations u <= 2 ^ 51 -> is_finite (reltol o) = true -> is_finite (abstol o) = true ->
  session FA amd u l = Ok (codes, q) -> test_at FA o q true -> reports FA (q_stats q) q -> test_says u o q.
Proof.
  intros V Hq HK Fr Fa E T1 T2. cbv beta delta [test_says]. intros x y z s.
  destruct (session_from FA _ (Safe_total FA FA_total) amd u V) as [q0 [B [r [E0 [HS HF]]]]].
  destruct (HF _ Hq) as [q2 [E2 [HA Hi]]]. rewrite E in E2. injection E2 as _ <-.
  destruct T1 as [qa [Ea Ht]]. destruct T2 as [qb [fv [temp [Eb [_ [H1 [H2 [H3 [H4 _]]]]]]]]].
  rewrite Ea in Eb. injection Eb as <-.
  destruct (proj1 (wp_exists _ _) (computeresiduals_ok FA B _ q _ (Safe_total FA FA_total) (at_base _ _ _ _ HA) (at_pt _ _ _ _ HA)))
    as [qc [Ec [rx [ry [rz [Eq1 _]]]]]]. rewrite Ea in Ec. injection Ec as <-.
  pose proof (test_at_ok FA _ (Safe_total FA FA_total) B q _ o HA Hi) as Hto.
  assert (Hst : stopF FA B (sn_pt FA (snd (callsF FA B (fresh FA B r) l))) o = true).
  { eapply test_at_fun; [exact Hto|]. exists qa. split; auto. }
  assert (Hmu : n_mu (q_stats q) = Some (nmuF FA B (sn_pt FA (snd (callsF FA B (fresh FA B r) l))))).
  { rewrite H3, Eq1. reflexivity. }
  pose proof (at_pt _ _ _ _ HA) as HPt.
  set (pt := sn_pt FA (snd (callsF FA B (fresh FA B r) l))) in *. clearbody pt.
  destruct (sd_B _ _ _ _ _ HS) as [Pf [Qf [par EB]]].
  pose proof V as V'. destruct V' as [Vn Vm [nzP VP] [nzG VG] VA Vc Vh Vs Vp].
  destruct (csc_link (f0 FA) _ _ _ _ _ _ Vn VP) as [CP [RP SP]].
  destruct (csc_link (f0 FA) _ _ _ _ _ _ Vn VG) as [CG [RG SG]].
  assert (EP : get 0 (u_Pjc u) (u_n u) = nzP) by (apply get_rd, (cp_last _ _ _ _ _ (ca_pattern _ _ _ _ _ _ VP))).
  assert (EG : get 0 (u_Gjc u) (u_n u) = nzG) by (apply get_rd, (cp_last _ _ _ _ _ (ca_pattern _ _ _ _ _ _ VG))).
  pose proof (valid_pe FA amd u V) as Hpe.
  assert (RA' : rows_in (u_pe u) (u_n u) (u_acol FA u) /\
     start (u_acol FA u) (u_n u) = match u_eqs u with Some (ajc, _, _, _) => get 0 ajc (u_n u) | None => 0 end).
  { change (car FA) with b64 in *. unfold u_pe, u_acol. change (car FA) with b64 in *. destruct (@u_eqs b64 u) as [[[[ajc air] apr] bb]|] eqn:Ee; 
      [|split; [intros j r' v _ []|unfold start; apply sumz_zero; reflexivity]].
    destruct (VA _ _ _ _ eq_refl) as [_ [[nz Hc] _]]. destruct (csc_link (f0 FA) _ _ _ _ _ _ Vn Hc) as [_ [R1 R2]]. split; auto.
    etransitivity; [exact R2|]. symmetry. apply get_rd, (cp_last _ _ _ _ _ (ca_pattern _ _ _ _ _ _ Hc)). }
  destruct RA' as [RA1 SA].
  set (K := Z.to_nat (operations u)).
  assert (Ops : operations u = nzP + nzG + start (u_acol FA u) (u_n u) + u_n u + u_m u + u_pe u + 4).
  { unfold operations. change (car FA) with b64 in *. rewrite EP, EG, SA. reflexivity. }
  pose proof (start_nonneg (column (f0 FA) (u_Pjc u) (u_Pir u) (u_Ppr u)) (u_n u)) as N1. pose proof (start_nonneg (column (f0 FA) (u_Gjc u) (u_Gir u) (u_Gpr u)) (u_n u)) as N2.
  pose proof (start_nonneg (u_acol FA u) (u_n u)) as N3. change (car FA) with b64 in *.
  assert (KZ : Z.of_nat K = operations u) by (unfold K; lia).
  assert (Gm : gamma K = gam u).
  { unfold gamma, gam. rewrite INR_IZR_INZ, KZ. unfold uu. change (-52) with (1 + -53). rewrite bpow_plus. change (bpow radix2 1) with 2%R. ring. }
  assert (Hg : (gamma K <= 1 / 2)%R).
  { rewrite Gm. unfold gam. apply Rle_trans with (IZR (2 ^ 51) * bpow radix2 (-52))%R; [apply Rmult_le_compat_r; [apply bpow_ge_0|apply IZR_le; lia]|].
    change (IZR (2 ^ 51)) with (bpow radix2 51). rewrite <- bpow_plus. change (bpow radix2 (51 + -52)) with (/ 2)%R. lra. }
  assert (HKK : start (pP B) (pn B) + start (pG B) (pn B) + start (pA B) (pn B) + pn B + pm B + pp B + 4 <= Z.of_nat K).
  { rewrite EB, KZ, Ops. cbn [prob_of pP pG pA pn pm pp]. change (car FA) with b64 in *. lia. }
  assert (D : 0 <= pn B /\ 1 <= pm B /\ 0 <= pp B /\ rows_in (pn B) (pn B) (pP B) /\ rows_in (pm B) (pn B) (pG B) /\ rows_in (pp B) (pn B) (pA B)).
  { rewrite EB. cbn [prob_of pP pG pA pn pm pp]. repeat (split; [assumption|]). assumption. }
  destruct D as [D1 [D2 [D3 [D4 [D5 D6]]]]].
  destruct (stop_bounds B pt D1 D2 D3 D5 D6 K HKK Hg o Fr Fa Hst) as [B0 [B1 [B2 [B3 [B4 B5]]]]].
  pose proof (stop_finite B pt D1 D2 D3 D4 D5 D6 K HKK Hg o Fr Hst) as [F1 [F2 [F3 [F4 [F5 F6]]]]].
  pose proof (g_pos B D1 D2 D3 K HKK) as Gp. rewrite Gm in *.
  assert (QE : qp_of (mapB B2R B) = exact_qp u) by (rewrite EB; apply mapped_qp; reflexivity).
  assert (QA : qp_of (mapB absB B) = size_qp u) by (rewrite EB; apply mapped_qp; unfold absB; rewrite B2R_zero; apply Rabs_R0).
  split; [lra|].
  assert (Bn : pn B = u_n u) by (rewrite EB; reflexivity). assert (Bm : pm B = u_m u) by (rewrite EB; reflexivity). assert (Bp : pp B = u_pe u) by (rewrite EB; reflexivity).
  destruct HPt as [Px Py Pz Ps].
  assert (Ex : eq_on (pn B) x (fun i => B2R (ptX FA pt i))) by (apply vec_pt; exact Px).
  assert (Ey : eq_on (pp B) y (fun i => B2R (ptY FA pt i))) by (apply vec_pt; exact Py).
  assert (Ez : eq_on (pm B) z (fun i => B2R (ptZ FA pt i))) by (apply vec_pt; exact Pz).
  assert (Es : eq_on (pm B) s (fun i => B2R (ptS FA pt i))) by (apply vec_pt; exact Ps).
  split; [|split; [exact B0|split; [|split]]].
  - split; [|split; [|split; [|split]]].
    + intros i j v Hj Hv. apply (F1 i j v); [lia|]. rewrite EB. apply (Csc_stored _ _ _ _ _ _ _ _ CP Hj). exact Hv.
    + intros i j v Hj Hv. apply (F2 i j v); [lia|]. rewrite EB. apply (Csc_stored _ _ _ _ _ _ _ _ CG Hj). exact Hv.
    + intros j v Hj Hv. specialize (F4 j ltac:(lia)). rewrite EB in F4. exact (fin_get _ _ _ _ Hv F4).
    + intros j v Hj Hv. destruct (F5 j ltac:(lia)) as [F5' _]. rewrite EB in F5'. exact (fin_get _ _ _ _ Hv F5').
    + intros ajc air apr bb Ee. destruct (VA _ _ _ _ Ee) as [_ [[nz Hc] _]]. destruct (csc_link (f0 FA) _ _ _ _ _ _ Vn Hc) as [CA _].
      assert (Hup : u_pe u = u_p u) by (unfold u_pe; rewrite Ee; reflexivity).
      assert (Hp0 : pp B <> 0).
      { rewrite Bp, Hup. unfold u_eqs in Ee. destruct (u_Apr u), (u_Ajc u), (u_Air u), (u_b u); try discriminate Ee. destruct (Z.eqb_spec (u_p u) 0); [discriminate Ee|auto]. }
      split.
      * intros i j v Hj Hv. apply (F3 Hp0 i j v); [lia|]. rewrite EB. cbn [prob_of pA]. unfold u_acol. change (car FA) with b64. rewrite Ee. apply (Csc_stored _ _ _ _ _ _ _ _ CA Hj). exact Hv.
      * intros i v Hi' Hv. specialize (F6 Hp0 i ltac:(lia)). rewrite EB in F6. cbn [prob_of pb] in F6. unfold u_bv in F6. change (car FA) with b64 in F6. rewrite Ee in F6. exact (fin_get _ _ _ _ Hv F6).
  - rewrite <- QE, <- QA. unfold tolK in *. rewrite Gm in *. split; cbn [qp_of mapB dn dm dp pn pm pp].
    + rewrite (Euclid_ext (res_dual _ x y z) (res_dual (qp_of (mapB B2R B)) (fun i => B2R (ptX FA pt i)) (fun i => B2R (ptY FA pt i)) (fun i => B2R (ptZ FA pt i))))
        by (intros; apply res_dual_ext; assumption).
      rewrite (Euclid_ext (w_dual _ x y z) (w_dual (qp_of (mapB absB B)) (fun i => B2R (ptX FA pt i)) (fun i => B2R (ptY FA pt i)) (fun i => B2R (ptZ FA pt i))))
        by (intros; apply w_dual_ext; assumption). exact B1.
    + rewrite (Euclid_ext (res_in _ x s) (res_in (qp_of (mapB B2R B)) (fun i => B2R (ptX FA pt i)) (fun i => B2R (ptS FA pt i))))
        by (intros; apply res_in_ext; assumption).
      rewrite (Euclid_ext (w_in _ x s) (w_in (qp_of (mapB absB B)) (fun i => B2R (ptX FA pt i)) (fun i => B2R (ptS FA pt i))))
        by (intros; apply w_in_ext; assumption). exact B2.
    + intros Hp0. rewrite (Euclid_ext (res_eq _ x) (res_eq (qp_of (mapB B2R B)) (fun i => B2R (ptX FA pt i)))) by (intros; apply res_eq_ext; assumption).
      rewrite (Euclid_ext (w_eq _ x) (w_eq (qp_of (mapB absB B)) (fun i => B2R (ptX FA pt i)))) by (intros; apply w_eq_ext; assumption). apply B3. exact Hp0.
  - intros i Hi'. destruct Ps as [_ Ps]. unfold get. rewrite Ps by (change (@pm (car FA) B) with (@pm b64 B); lia). apply F5. lia.
  - exists (nmuF FA B pt). split; [exact Hmu|]. split.
    + intros Ns Nz. apply B5; intros i Hi'; [destruct (Ns i ltac:(lia)) as [v [Hv Hf]]; destruct Ps as [_ Ps]; rewrite Ps in Hv by (change (@pm (car FA) B) with (@pm b64 B); lia)|destruct (Nz i ltac:(lia)) as [v [Hv Hf]]; destruct Pz as [_ Pz]; rewrite Pz in Hv by (change (@pm (car FA) B) with (@pm b64 B); lia)]; injection Hv as <-; exact Hf.
    + intros Fm. specialize (B4 Fm). rewrite <- QE.
      rewrite (gap_ext (qp_of (mapB B2R B)) z (fun i => B2R (ptZ FA pt i)) s (fun i => B2R (ptS FA pt i))) by assumption.
      rewrite (gap_ext (qp_of (mapB B2R B)) (fun i => Rabs (z i)) (fun i => absB (ptZ FA pt i)) (fun i => Rabs (s i)) (fun i => absB (ptS FA pt i)));
        [exact B4|intros i Hi'; rewrite Ez by auto; reflexivity|intros i Hi'; rewrite Es by auto; reflexivity].
Qed.
Theorem C54_optimal_binary64 amd u o q : valid_user amd u -> quiet_calls FA u [SetOptions FA o; Solve FA] ->
  operations u <= 2 ^ 51 -> is_finite (reltol o) = true -> is_finite (abstol o) = true ->
  session FA amd u [SetOptions FA o; Solve FA] = Ok ([0], q) ->
  let x := vec_of (q_x q) in let y := vec_of (q_y q) in let z := vec_of (q_z q) in let s := vec_of (q_s q) in
  (0 < gam u <= 1 / 2)%R /\ finite_data u /\ (0 <= B2R (reltol o))%R /\
  near_kkt (exact_qp u) (size_qp u) (met u (B2R (reltol o))) (gam u) x y z s /\
  (forall i, 0 <= i < u_m u -> is_finite (get B754_nan (q_s q) i) = true) /\
  exists mu, n_mu (q_stats q) = Some mu /\
    (nonneg_vec (q_s q) (u_m u) -> nonneg_vec (q_z q) (u_m u) -> is_finite mu = true) /\
    (is_finite mu = true -> (gap (exact_qp u) s z < B2R (abstol o) + gam u * gap (exact_qp u) (fun i => Rabs (s i)) (fun i => Rabs (z i)) + bpow radix2 (-510))%R).
Proof.
  intros V Hq HK Fr Fa E. destruct (C14_C17_optimal FA _ amd u o q (Safe_total FA FA_total) V Hq E) as [T1 T2].
  exact (test_binary64 amd u _ o _ q V Hq HK Fr Fa E T1 T2).
Qed.
Print Assumptions C54_optimal_binary64.

Lemma exact_dims (u : user b64) : dn (exact_qp u) = u_n u /\ dm (exact_qp u) = u_m u /\ dp (exact_qp u) = u_pe u.
Proof.
  unfold exact_qp, user_qp, u_pe, u_eqs, user_map. cbn [u_n u_m u_p u_Apr u_Ajc u_Air u_b].
  destruct (u_Apr u), (u_Ajc u), (u_Air u), (u_b u); cbn [option_map]; try (destruct (u_p u =? 0)); repeat split; reflexivity.
Qed.

(** In terms of feasibility and the optimal value. *)
Lemma says_near_optimal (u : user b64) (o : settings b64) (q : qp b64) x' : 1 <= u_m u -> test_says u o q ->
  nonneg_vec (q_s q) (u_m u) -> nonneg_vec (q_z q) (u_m u) ->
  let Q := exact_qp u in let W := size_qp u in let t := met u (B2R (reltol o)) in
  let x := vec_of (q_x q) in let y := vec_of (q_y q) in let z := vec_of (q_z q) in let s := vec_of (q_s q) in
  let e_dual := (t + gam u * Euclid (w_dual W x y z) (u_n u))%R in
  let e_in := (t + gam u * Euclid (w_in W x s) (u_m u))%R in
  let e_eq := (if u_pe u =? 0 then 0 else t + gam u * Euclid (w_eq W x) (u_pe u))%R in
  (forall i, 0 <= i < u_m u -> (Sum (u_n u) (fun j => dG Q i j * x j) <= dh Q i + e_in)%R) /\
  (forall i, 0 <= i < u_pe u -> (Rabs (db Q i - Sum (u_n u) (fun j => dA Q i j * x j)) <= e_eq)%R) /\
  (symmetric Q -> psd_on Q -> feasible Q x' ->
   (objective Q x - objective Q x' <= e_dual * Euclid (fun i => x' i - x i) (u_n u) + e_eq * Euclid y (u_pe u) + e_in * Euclid z (u_m u)
     + IZR (u_m u) * (B2R (abstol o) + bpow radix2 (-510)) + gam u * Sum (u_m u) (fun i => s i * z i))%R).
Proof.
  intros Vm0 [G [_ [_ [[K1 K2 K3] [_ [mu [_ [M1 M2]]]]]]]] Ns Nz Q W t x y z s e_dual e_in e_eq.
  fold x y z s in K1, K2, K3, M2. specialize (M2 (M1 Ns Nz)). change (car FA) with b64 in *.
  pose proof (exact_dims u) as D. fold Q in D.
  destruct D as [D1 [D2 D3]]. fold Q W t in K1, K2, K3, M2. rewrite D1 in K1. rewrite D2 in K2. rewrite D3 in K3. fold e_dual in K1. fold e_in in K2.
  pose proof Vm0 as Vm.
  assert (Pos : forall a : arr b64, nonneg_vec a (u_m u) -> forall i, 0 <= i < u_m u -> (0 <= vec_of a i)%R).
  { intros a Ha i Hi. destruct (Ha i Hi) as [v [Hv [_ Hp]]]. unfold vec_of, get. rewrite Hv. exact Hp. }
  pose proof (Pos _ Ns) as Ps. pose proof (Pos _ Nz) as Pz. fold s in Ps. fold z in Pz.
  assert (K3' : (Euclid (res_eq Q x) (u_pe u) <= e_eq)%R).
  { unfold e_eq. destruct (Z.eqb_spec (u_pe u) 0) as [E0|E0]; [|apply K3; auto]. rewrite E0. unfold Euclid, Sum. rewrite zr_nil by lia. cbn [sumr]. rewrite sqrt_0. lra. }
  split; [|split].
  - intros i Hi. pose proof (Euclid_entry (res_in Q x s) (u_m u) i Hi) as H.
    assert (Er : res_in Q x s i = (dh Q i - s i - Sum (u_n u) (fun j => dG Q i j * x j))%R) by (unfold res_in; rewrite D1; reflexivity).
    specialize (Ps i Hi). pose proof (Rle_abs (- res_in Q x s i)) as H'. rewrite Rabs_Ropp in H'. lra.
  - intros i Hi. pose proof (Euclid_entry (res_eq Q x) (u_pe u) i Hi) as H.
    assert (Er : res_eq Q x i = (db Q i - Sum (u_n u) (fun j => dA Q i j * x j))%R) by (unfold res_eq; rewrite D1; reflexivity).
    rewrite <- Er. lra.
  - intros Hsym Hpsd Hf. pose proof (weak_duality Q Hsym Hpsd x y z s x' Hf) as WD. rewrite D1, D2, D3 in WD. specialize (WD Pz).
    assert (A1 : (Sum (u_n u) (fun j => res_dual Q x y z j * (x' j - x j)) <= e_dual * Euclid (fun i => x' i - x i) (u_n u))%R).
    { pose proof (Euclid_nonneg (fun i => (x' i - x i)%R) (u_n u)).
      eapply Rle_trans; [apply Rle_abs|]. eapply Rle_trans; [apply (Cauchy (u_n u) (res_dual Q x y z) (fun i => (x' i - x i)%R))|].
      apply Rmult_le_compat_r; auto. }
    assert (A2 : (Sum (u_m u) (fun i => z i * res_in Q x s i) <= e_in * Euclid z (u_m u))%R).
    { pose proof (Euclid_nonneg z (u_m u)). eapply Rle_trans; [apply Rle_abs|]. eapply Rle_trans; [apply (Cauchy (u_m u) z (res_in Q x s))|].
      rewrite Rmult_comm. apply Rmult_le_compat_r; auto. }
    assert (A3 : (Sum (u_pe u) (fun i => y i * res_eq Q x i) <= e_eq * Euclid y (u_pe u))%R).
    { pose proof (Euclid_nonneg y (u_pe u)). eapply Rle_trans; [apply Rle_abs|]. eapply Rle_trans; [apply (Cauchy (u_pe u) y (res_eq Q x))|].
      rewrite Rmult_comm. apply Rmult_le_compat_r; auto. }
    assert (A4 : (Sum (u_m u) (fun i => s i * z i) <= IZR (u_m u) * (B2R (abstol o) + bpow radix2 (-510)) + gam u * Sum (u_m u) (fun i => s i * z i))%R).
    { unfold gap in M2. rewrite D2 in M2. rewrite (Sum_ext (u_m u) (fun i => (Rabs (s i) * Rabs (z i))%R) (fun i => (s i * z i)%R)) in M2
        by (intros i Hi; rewrite !Rabs_pos_eq by auto; reflexivity).
      set (S0 := Sum (u_m u) (fun i => (s i * z i)%R)) in *. assert (Im : (1 <= IZR (u_m u))%R) by (apply IZR_le; lia).
      apply (Rmult_lt_compat_l (IZR (u_m u))) in M2; [|lra].
      replace (IZR (u_m u) * (S0 / IZR (u_m u)))%R with S0 in M2 by (field; lra).
      replace (IZR (u_m u) * (B2R (abstol o) + gam u * (S0 / IZR (u_m u)) + bpow radix2 (-510)))%R
        with (IZR (u_m u) * (B2R (abstol o) + bpow radix2 (-510)) + gam u * S0)%R in M2 by (field; lra). lra. }
    lra.
Qed.

Theorem C54_near_optimal amd u o q x' : valid_user amd u -> quiet_calls FA u [SetOptions FA o; Solve FA] ->
  operations u <= 2 ^ 51 -> is_finite (reltol o) = true -> is_finite (abstol o) = true ->
  session FA amd u [SetOptions FA o; Solve FA] = Ok ([0], q) ->
  nonneg_vec (q_s q) (u_m u) -> nonneg_vec (q_z q) (u_m u) ->
  let Q := exact_qp u in let W := size_qp u in let t := met u (B2R (reltol o)) in
  let x := vec_of (q_x q) in let y := vec_of (q_y q) in let z := vec_of (q_z q) in let s := vec_of (q_s q) in
  let e_dual := (t + gam u * Euclid (w_dual W x y z) (u_n u))%R in
  let e_in := (t + gam u * Euclid (w_in W x s) (u_m u))%R in
  let e_eq := (if u_pe u =? 0 then 0 else t + gam u * Euclid (w_eq W x) (u_pe u))%R in
  (forall i, 0 <= i < u_m u -> (Sum (u_n u) (fun j => dG Q i j * x j) <= dh Q i + e_in)%R) /\
  (forall i, 0 <= i < u_pe u -> (Rabs (db Q i - Sum (u_n u) (fun j => dA Q i j * x j)) <= e_eq)%R) /\
  (symmetric Q -> psd_on Q -> feasible Q x' ->
   (objective Q x - objective Q x' <= e_dual * Euclid (fun i => x' i - x i) (u_n u) + e_eq * Euclid y (u_pe u) + e_in * Euclid z (u_m u)
     + IZR (u_m u) * (B2R (abstol o) + bpow radix2 (-510)) + gam u * Sum (u_m u) (fun i => s i * z i))%R).
Proof.
  intros V Hq HK Fr Fa E Ns Nz. apply says_near_optimal; auto; [exact (vu_m _ _ V)|].
  exact (C54_optimal_binary64 amd u o q V Hq HK Fr Fa E).
Qed.
Print Assumptions C54_near_optimal.

(** A case: minimise x^2/2 subject to x >= 1 in doubles, tolerances 1/100; three iterations. *)
Definition opt54 : settings (car FA) := (default_settings FA) <| reltol := fdec FA 1 100 |> <| abstol := fdec FA 1 100 |>.
Definition pos_b (x : b64) : bool := match x with B754_zero _ => true | B754_finite false _ _ _ => true | _ => false end.
Lemma pos_b_ok x : pos_b x = true -> is_finite x = true /\ (0 <= B2R x)%R.
Proof. destruct x as [s| | |[] m e H]; try discriminate; intros _; (split; [reflexivity|]); [cbn; lra|apply F2R_ge_0; cbn; lia]. Qed.

Theorem C54_case : exists q, valid_user noamd (small FA) /\ quiet_calls FA (small FA) [SetOptions FA opt54; Solve FA] /\
  operations (small FA) <= 2 ^ 51 /\ is_finite (reltol opt54) = true /\ is_finite (abstol opt54) = true /\
  session FA noamd (small FA) [SetOptions FA opt54; Solve FA] = Ok ([0], q) /\
  nonneg_vec (q_s q) (u_m (small FA)) /\ nonneg_vec (q_z q) (u_m (small FA)).
Proof.
  assert (C : match session FA noamd (small FA) [SetOptions FA opt54; Solve FA] with
    | Ok ([c], q) => match rd (q_s q) 0, rd (q_z q) 0 with Ok a, Ok b => (c =? 0) && (pos_b a && pos_b b) | _, _ => false end
    | _ => false end = true) by (vm_compute; reflexivity).
  destruct (session FA noamd (small FA) [SetOptions FA opt54; Solve FA]) as [[[|c [|]] q]| |]; try discriminate C.
  destruct (rd (q_s q) 0) as [a| |] eqn:E1; try discriminate C. destruct (rd (q_z q) 0) as [b| |] eqn:E2; try discriminate C.
  apply andb_true_iff in C. destruct C as [C1 C2]. apply Z.eqb_eq in C1. subst c. apply andb_true_iff in C2. destruct C2 as [C2 C3].
  exists q. split; [apply small_valid|]. split; [right; intros o [H|[H|[]]]; [injection H as <-; cbn; lia|discriminate H]|].
  split; [vm_compute; discriminate|]. split; [vm_compute; reflexivity|]. split; [vm_compute; reflexivity|]. split; [reflexivity|].
  split; intros i Hi; change (u_m (small FA)) with 1 in Hi; enum i; eexists; (split; [eassumption|apply pos_b_ok; assumption]).
Qed.
