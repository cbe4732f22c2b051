(** C80: the objective value reported with exit code 0 and the optimal value. *)
From Coq Require Import ZArith Reals List Lia Lra Bool.
From RecordUpdate Require Import RecordUpdate.
From Flocq Require Import Core BinarySingleNaN.
From Verif Require Import Res Partial Arith Lists MSparse Csc SemVec Flat TransposeProofs KktProofs MLdl LdlSym LdlNum LdlR
  LdlFun MSolver VecOps Iter SafeInst Setup Session Spec SpecLink QpSpec NewtonR PointR Api P2_Kkt P4_Always P5_Session P6_Codes Demo
  StepSpec StepFacts StepLink P7_Step QpFacts P8_Problem P8_Cases Round P14_Round P22_RoundCodes P38_Locate P40_Exact.
Import ListNotations.
Open Scope Z_scope.

(** ** Specification *)

(** The terms that are added up in the objective. *)
Definition w_objective (W : QPdata) (x : Z -> R) : R :=
  (1 / 2 * Sum (dn W) (fun i => Rabs (x i) * Sum (dn W) (fun j => dP W i j * Rabs (x j))) + Sum (dn W) (fun j => dc W j * Rabs (x j)))%R.

(** Error of the computed value: relative to those terms, plus underflow. *)
Definition value_error (u : user b64) (x : Z -> R) : R :=
  (gam u * w_objective (size_qp u) x + bpow radix2 (-1022) * (1 + Sum (u_n u) (fun i => Rabs (x i))))%R.

(** ** Lower bound: a point with small residuals cannot be much better than a solution *)
Section Lower.
Variable Q : QPdata.
Notation n := (dn Q). Notation m := (dm Q). Notation p := (dp Q).
Open Scope R_scope.

Lemma value_below x s x0 y0 z0 ee ei : symmetric Q -> psd_on Q -> kkt_point Q x0 y0 z0 -> (forall i, (0 <= i < m)%Z -> 0 <= s i) ->
  Euclid (res_eq Q x) p <= ee -> Euclid (res_in Q x s) m <= ei ->
  objective Q x0 - objective Q x <= ee * Euclid y0 p + ei * Euclid z0 m.
Proof.
  intros HS HP [K1 [K2 K2'] K3 K4] Hs H1 H2. pose proof (objective_diff Q HS x0 x) as E.
  pose proof (HP (fun i => x i - x0 i)) as Hp. cbv beta in Hp.
  assert (E2 : Sum n (fun j => (Sum n (fun k => dP Q j k * x0 k) + dc Q j) * (x j - x0 j)) =
     - Sum m (fun i => z0 i * Sum n (fun j => dG Q i j * (x j - x0 j))) - Sum p (fun i => y0 i * Sum n (fun j => dA Q i j * (x j - x0 j)))).
  { rewrite <- (adjoint Q (dG Q) m), <- (adjoint Q (dA Q) p), <- Sum_opp, <- Sum_minus. apply Sum_ext. intros j Hj. specialize (K1 j Hj).
    unfold res_dual in K1. set (a := Sum n (fun k => dP Q j k * x0 k)) in *. replace a with (- Sum m (fun i => dG Q i j * z0 i) - Sum p (fun i => dA Q i j * y0 i) - dc Q j) by lra. ring. }
  assert (E3 : Sum p (fun i => y0 i * Sum n (fun j => dA Q i j * (x j - x0 j))) = - Sum p (fun i => y0 i * res_eq Q x i)).
  { rewrite <- Sum_opp. apply Sum_ext. intros i Hi. specialize (K2 i Hi). rewrite (apply_diff Q (dA Q)). unfold res_eq in *.
    replace (Sum n (fun j => dA Q i j * x0 j)) with (db Q i) by lra. ring. }
  assert (E4 : Sum m (fun i => z0 i * Sum n (fun j => dG Q i j * (x j - x0 j))) = - Sum m (fun i => z0 i * res_in Q x s i) - Sum m (fun i => z0 i * s i)).
  { rewrite <- Sum_opp, <- Sum_minus. apply Sum_ext. intros i Hi. specialize (K4 i Hi). rewrite (apply_diff Q (dG Q)). unfold res_in, slack in *.
    set (a := Sum n (fun j => dG Q i j * x j)) in *. set (b := Sum n (fun j => dG Q i j * x0 j)) in *. nra. }
  assert (E5 : 0 <= Sum m (fun i => z0 i * s i)) by (apply Sum_nonneg; intros i Hi; apply Rmult_le_pos; auto).
  pose proof (small_sum p y0 (res_eq Q x) ee H1). pose proof (small_sum m z0 (res_in Q x s) ei H2). lra.
Qed.
End Lower.

(** ** The value that is reported *)
Lemma reports_value (A : Arith) ps (SF : Safe A ps) B q s st : At A B q s -> reports A st q -> fval st = Some (fvalF A B (sn_pt A s)).
Proof.
  intros HA [q2 [fv [temp [_ [E [_ [_ [_ [_ Ef]]]]]]]]]. destruct HA as [HB HP Ho Hst].
  assert (Hobj : wp (obj_value A (q_P q) (q_c q) (q_x q) (q_temp q)) (fun r => fst r = fvalF A B (sn_pt A s))).
  { eapply wp_mono; [eapply (obj_value_ok A _ _ _ _ (pn B) (pP B) (pc B) (ptX A (sn_pt A s)))|].
    - apply (b_P _ _ _ HB).
    - apply (b_c _ _ _ HB).
    - apply is_vec_vec, HP.
    - apply (b_temp _ _ _ HB).
    - intros [fv' temp'] [E' _]. exact E'. }
  rewrite E in Hobj. cbn in Hobj. rewrite Ef, Hobj. reflexivity.
Qed.

(** ** Exact arithmetic *)
Section Exact.
Variables (amd : amd_t) (u : user R) (l : list (call RA)) (codes : list Z) (q0 q : qp R).
Hypothesis V : valid_user amd u.
Hypothesis HZ : earned_zero amd u l codes q0 q.
Notation o := (q_options q0).
Notation Q := (user_qp u).
Notation rho := (reltol o / sqrt 3)%R.

(** The reported value is the objective at the returned point. *)
Theorem C80_value_exact : fval (q_stats q) = Some (objective Q (hx q)).
Proof.
  destruct HZ as [Hq E1 E2 Hn].
  destruct (C20_any_solve RA Rpos amd u l Safe_R V Hq) as [cs [qa [c [qb [E1' [E2' [Hf [_ H]]]]]]]].
  rewrite E1 in E1'. injection E1' as <- <-. rewrite E2 in E2'. injection E2' as Ec <-. apply app_inj_tail in Ec. destruct Ec as [_ <-].
  destruct H as [[_ [H2 _]]|[Hk Hc]].
  - destruct (session_from RA Rpos Safe_R amd u V) as [qs [B [r [E0 [HS HF]]]]].
    destruct (HF _ Hq) as [q3 [E3 [HA Hi]]]. rewrite E2 in E3. injection E3 as _ <-.
    etransitivity; [exact (reports_value RA Rpos Safe_R B q _ _ HA H2)|]. f_equal. apply (fval_handle u B qs r HS). apply Pt_is. apply HA.
  - exfalso. cbn [car RA] in *. rewrite Hf in Hc. destruct (_ =? _) in Hc; [discriminate Hc|]. destruct Hn as [Hn|Hn]; [congruence|lia].
Qed.

(** It is close to the optimal value, from both sides. *)
Theorem C80_exact x0 y0 z0 : symmetric Q -> psd_on Q -> kkt_point Q x0 y0 z0 ->
  exists f, fval (q_stats q) = Some f /\
    (- (rho * ((if u_pe u =? 0 then 0 else Euclid y0 (u_pe u)) + Euclid z0 (u_m u))) <= f - objective Q x0 <
      rho * (dist (u_n u) x0 (hx q) + (if u_pe u =? 0 then 0 else Euclid (hy q) (u_pe u)) + Euclid (hz q) (u_m u)) + IZR (u_m u) * abstol o)%R.
Proof.
  intros Hs Hp K. exists (objective Q (hx q)). split; [exact C80_value_exact|]. destruct (user_dims u) as [D1 [D2 D3]].
  split.
  - pose proof (C14_any_solve amd u l codes q0 q V HZ) as [T1 [T2 [T3 T4]]]. cbn [car RA] in *.
    assert (R3 : (Euclid (res_eq Q (hx q)) (dp Q) <= if u_pe u =? 0 then 0 else rho)%R).
    { rewrite <- D3. destruct (Z.eqb_spec (dp Q) 0) as [E0|E0]; [|left; apply T3; exact E0].
      rewrite E0. unfold Euclid, Sum. rewrite zr_nil by lia. cbn [sumr]. rewrite sqrt_0. lra. }
    pose proof (value_below Q (hx q) (hs q) x0 y0 z0 _ _ Hs Hp K (earned_s amd u l codes q0 q V HZ) R3 (Rlt_le _ _ T2)) as L.
    rewrite D2, D3 in L. cbn [car RA] in *. destruct (u_pe u =? 0); lra.
  - pose proof (C15_any_solve amd u l codes q0 q V HZ x0 Hs Hp (kp_feas _ _ _ _ K)) as L. rewrite D1, D2, D3 in L. exact L.
Qed.
End Exact.

(** ** Rounding of the value *)
Section Round.
Open Scope R_scope.

(** A product in which one factor is approximate. *)
Lemma apx_prod k w e (a y t : R) (r : b64) d nn : Rabs t <= w -> 0 <= e -> Rabs (a - t) <= (gg k - 1) * w + gg k * e ->
  Rabs d <= uu -> Rabs nn <= eta -> B2R r = a * y * (1 + d) + nn ->
  Rabs (B2R r - t * y) <= (gg (S k) - 1) * (w * Rabs y) + gg (S k) * (e * Rabs y + eta).
Proof.
  intros A1 A2 A3 Hd Hn ->. pose proof uu_pos as U. pose proof eta_pos as E0. pose proof (gg_ge1 k) as G.
  replace (a * y * (1 + d) + nn - t * y) with ((a - t) * (1 + d) * y + t * y * d + nn) by ring.
  assert (S2 : Rabs (1 + d) <= 1 + uu) by (eapply Rle_trans; [apply Rabs_triang|]; rewrite Rabs_R1; lra).
  set (er := (gg k - 1) * w + gg k * e) in *. pose proof (Rabs_pos y) as Y. set (r' := Rabs y) in *.
  assert (P1 : Rabs ((a - t) * (1 + d) * y) <= er * (1 + uu) * r').
  { rewrite !Rabs_mult. apply Rmult_le_compat_r; [exact Y|]. apply Rmult_le_compat; auto using Rabs_pos. }
  assert (P2 : Rabs (t * y * d) <= w * r' * uu).
  { rewrite !Rabs_mult. fold r'. apply Rmult_le_compat; auto using Rabs_pos.
    - apply Rmult_le_pos; [apply Rabs_pos|exact Y].
    - apply Rmult_le_compat_r; lra. }
  eapply Rle_trans; [apply Rabs_triang|]. eapply Rle_trans; [apply Rplus_le_compat_r, Rabs_triang|].
  rewrite gg_S. assert (Gn : eta <= (1 + uu) * gg k * eta).
  { rewrite <- (Rmult_1_l eta) at 1. apply Rmult_le_compat_r; [lra|]. nra. }
  replace (((1 + uu) * gg k - 1) * (w * r') + (1 + uu) * gg k * (e * r' + eta)) with
    (er * (1 + uu) * r' + w * r' * uu + (1 + uu) * gg k * eta) by (unfold er; ring). lra.
Qed.

Lemma apx_mul_r k w e x v y : apx k w e x v -> apx (S k) (w * Rabs (B2R y)) (e * Rabs (B2R y) + eta) (fmul FA x y) (v * B2R y).
Proof.
  intros [A1 A2 A3]. pose proof (Rabs_pos (B2R y)) as Y. pose proof eta_pos. split.
  - rewrite Rabs_mult. apply Rmult_le_compat_r; auto.
  - assert (0 <= e * Rabs (B2R y)) by (apply Rmult_le_pos; auto). lra.
  - intros F. destruct (mul_fin x y F) as [Fx _]. destruct (mul_val x y F) as [d [nn [Hd [Hn E]]]].
    apply (apx_prod k w e (B2R x) _ v _ d nn); auto.
Qed.
Lemma apx_mul_l k w e x v y : apx k w e x v -> apx (S k) (w * Rabs (B2R y)) (e * Rabs (B2R y) + eta) (fmul FA y x) (v * B2R y).
Proof.
  intros [A1 A2 A3]. pose proof (Rabs_pos (B2R y)) as Y. pose proof eta_pos. split.
  - rewrite Rabs_mult. apply Rmult_le_compat_r; auto.
  - assert (0 <= e * Rabs (B2R y)) by (apply Rmult_le_pos; auto). lra.
  - intros F. destruct (mul_fin y x F) as [_ Fx]. destruct (mul_val y x F) as [d [nn [Hd [Hn E]]]].
    apply (apx_prod k w e (B2R x) _ v _ d nn); auto. rewrite E. ring.
Qed.

Lemma fold_apx (f : Z -> b64) (w e v : Z -> R) l : forall k w0 e0 acc v0, apx k w0 e0 acc v0 ->
  (forall i, In i l -> apx k (w i) (e i) (f i) (v i)) ->
  apx (k + length l) (w0 + sumr w l) (e0 + sumr e l) (fold_left (fun acc i => fadd FA acc (f i)) l acc) (v0 + sumr v l).
Proof.
  induction l as [|i l IH]; intros k w0 e0 acc v0 H Hl.
  - cbn [length sumr fold_left]. rewrite Nat.add_0_r, !Rplus_0_r. exact H.
  - cbn [length sumr fold_left]. replace (k + S (length l))%nat with (S k + length l)%nat by lia.
    rewrite <- !Rplus_assoc. apply IH.
    + apply apx_add; [exact H|]. apply Hl. left. reflexivity.
    + intros j Hj. eapply apx_mono; [apply Hl; right; exact Hj|lia|lra|lra].
Qed.
End Round.

Lemma half_val : B2R (fdec FA 1 2 : b64) = (1 / 2)%R.
Proof. rewrite (sf1_R _ false (-53)) by (vm_compute; reflexivity). change (bpow radix2 (-53)) with (/ 9007199254740992)%R. lra. Qed.

Section Value.
Variable B : prob b64.
Variable pt : point FA.
Notation n := (pn B).
Hypothesis Hn : 0 <= n.
Variable K : nat.
Hypothesis HK : start (pP B) n + n + 4 <= Z.of_nat K.
Hypothesis Hg : (gamma K <= 1 / 2)%R.
Notation Q := (qp_of (mapB B2R B)).
Notation Qa := (qp_of (mapB absB B)).
Notation x := (fun i => B2R (ptX FA pt i)).

Lemma value_apx : apx K (w_objective Qa x) (2 * INR K * eta * (1 + Sum n (fun i => Rabs (x i))))%R (fvalF FA B pt) (objective Q x).
Proof.
  unfold fvalF, objF. set (X := ptX FA pt). pose proof (start_nonneg (pP B) n) as N0. set (NP := Z.to_nat (start (pP B) n)).
  assert (T : forall i, apx (S NP) (Sum n (fun j => ent (mapc absB (pP B) j) i * absB (X j)))%R (INR NP * eta)%R (multF FA (pP B) n X i (f0 FA))
     (- Sum n (fun j => ent (mapc B2R (pP B) j) i * B2R (X j)))%R).
  { intros i. pose proof (mult_apx (pP B) n X i 1 0 0 _ 0 ltac:(lia) apx_zero) as H.
    pose proof (mult_terms_len (pP B) n X i) as L. rewrite Rplus_0_l in H.
    replace (0 - Sum n (fun j => ent (mapc B2R (pP B) j) i * B2R (X j)))%R with (- Sum n (fun j => ent (mapc B2R (pP B) j) i * B2R (X j)))%R in H by ring.
    eapply apx_mono; [exact H|unfold NP; lia|lra|]. rewrite Rplus_0_l. apply Rmult_le_compat_r; [left; apply eta_pos|]. apply le_INR. unfold NP. lia. }
  pose proof (fold_apx (fun i => fmul FA (multF FA (pP B) n X i (f0 FA)) (X i))
    (fun i => Sum n (fun j => ent (mapc absB (pP B) j) i * absB (X j)) * Rabs (B2R (X i)))%R (fun i => INR NP * eta * Rabs (B2R (X i)) + eta)%R
    (fun i => (- Sum n (fun j => ent (mapc B2R (pP B) j) i * B2R (X j))) * B2R (X i))%R (zr 0 n) (S (S NP)) 0 0 (f0 FA) 0) as H1.
  specialize (H1 (apx_mono _ _ _ _ _ (S (S NP)) _ _ apx_zero ltac:(lia) (Rle_refl _) (Rle_refl _)) (fun i _ => apx_mul_r _ _ _ _ _ (X i) (T i))).
  change (fold_left (fun acc i => fadd FA acc (fmul FA (multF FA (pP B) n X i (f0 FA)) (X i))) (zr 0 n) (f0 FA))
    with (dotF FA (fun i => multF FA (pP B) n X i (f0 FA)) X n) in H1.
  pose proof (apx_mul_l _ _ _ _ _ (fopp FA (fdec FA 1 2)) H1) as H2.
  assert (Hh : B2R (fopp FA (fdec FA 1 2)) = (- (1 / 2))%R) by (cbn [fopp FA]; rewrite B2R_Bopp, half_val; reflexivity).
  rewrite Hh in H2. rewrite Rabs_left in H2 by lra.
  pose proof (dot_apx (pc B) X n Hn) as H3. 
  assert (Lz : length (zr 0 n) = Z.to_nat n) by (pose proof (zlen_zr 0 n); unfold zlen in *; lia). rewrite Lz in *.
  pose proof (apx_add (S (S (S NP) + Z.to_nat n)) _ _ _ _ _ _ _ _ H2 (apx_mono _ _ _ _ _ (S (S (S NP) + Z.to_nat n)) _ _ H3 ltac:(lia) (Rle_refl _) (Rle_refl _))) as H4.
  clear H1 H2 H3.
  assert (Ev : ((0 + sumr (fun i : Z => - Sum n (fun j : Z => ent (mapc B2R (pP B) j) i * B2R (X j)) * B2R (X i)) (zr 0 n)) * - (1 / 2) +
       Sum n (fun i : Z => B2R (pc B i) * B2R (X i)))%R = objective Q x).
  { unfold objective. cbn [qp_of mapB dn dm dp dP dA dG dc db dh pn pm pp pP pA pG pc pb ph].
    rewrite (sumr_ext _ (fun i => - (B2R (X i) * Sum n (fun j => ent (mapc B2R (pP B) j) i * B2R (X j))))%R) by (intros; ring).
    rewrite sumr_opp. unfold Sum, X. lra. }
  rewrite Ev in H4. eapply apx_mono; [exact H4|unfold NP; lia| |].
  - unfold w_objective. cbn [qp_of mapB dn dm dp dP dA dG dc db dh pn pm pp pP pA pG pc pb ph]. unfold absB, Sum, X. right.
    rewrite (sumr_ext (fun i => sumr _ _ * Rabs (B2R (ptX FA pt i)))%R (fun i => Rabs (B2R (ptX FA pt i)) * sumr (fun j => ent (mapc (fun v => Rabs (B2R v)) (pP B) j) i * Rabs (B2R (ptX FA pt j))) (zr 0 n))%R) by (intros; ring).
    lra.
  - rewrite sumr_plus, sumr_scal. 
    assert (En : sumr (fun _ : Z => eta) (zr 0 n) = (IZR n * eta)%R).
    { assert (X0 : forall l : list Z, sumr (fun _ : Z => eta) l = (INR (length l) * eta)%R).
      { induction l as [|a l IH]; cbn [sumr length]; [cbn [INR]; ring|]. rewrite IH, S_INR. ring. }
      rewrite X0, Lz, INR_IZR_INZ, Z2Nat.id by exact Hn. reflexivity. }
    rewrite En. change (sumr (fun i : Z => Rabs (B2R (X i))) (zr 0 n)) with (Sum n (fun i => Rabs (x i))).
    assert (S0 : (0 <= Sum n (fun i => Rabs (x i)))%R) by (apply Sum_nonneg; intros; apply Rabs_pos).
    set (S := Sum n (fun i => Rabs (x i))) in *. pose proof eta_pos as E0.
    rewrite (INR_IZR_INZ (Z.to_nat n)). rewrite Z2Nat.id by exact Hn.
    assert (I1 : (INR NP + IZR n + 4 <= INR K)%R).
    { rewrite !INR_IZR_INZ, <- !plus_IZR. apply IZR_le. unfold NP. lia. }
    assert (I2 : (0 <= INR NP)%R) by apply pos_INR. assert (I3 : (0 <= IZR n)%R) by (apply IZR_le; exact Hn).
    assert (J : ((INR NP * S + IZR n) * (1 / 2) + 1 + IZR n <= 2 * INR K * (1 + S))%R) by nra.
    change (Sum n (fun i => Rabs (B2R (X i)))) with S. apply (Rmult_le_compat_r eta) in J; [|lra]. lra.
Qed.

Lemma value_bound : is_finite (fvalF FA B pt) = true ->
  (Rabs (B2R (fvalF FA B pt) - objective Q x) <= gamma K * w_objective Qa x + bpow radix2 (-1022) * (1 + Sum n (fun i => Rabs (x i))))%R.
Proof.
  intros F. pose proof (apx_gamma _ _ _ _ _ K value_apx ltac:(lia) Hg F) as H. eapply Rle_trans; [exact H|]. apply Rplus_le_compat_l.
  assert (S0 : (0 <= Sum n (fun i => Rabs (x i)))%R) by (apply Sum_nonneg; intros; apply Rabs_pos).
  replace (3 / 2 * (2 * INR K * eta * (1 + Sum n (fun i => Rabs (x i)))))%R with (3 * INR K * eta * (1 + Sum n (fun i => Rabs (x i))))%R by field.
  apply Rmult_le_compat_r; [lra|]. unfold gamma in Hg.
  assert (G : (INR K * uu <= 1 / 4)%R) by lra.
  replace eta with (uu * bpow radix2 (-1022))%R by (unfold uu, eta; rewrite <- bpow_plus; reflexivity).
  assert (0 < bpow radix2 (-1022))%R by apply bpow_gt_0. nra.
Qed.
End Value.

(** ** Binary64 *)
Section Binary64.
Variables (amd : amd_t) (u : user b64) (l : list (call FA)) (codes : list Z) (q0 q : qp b64).
Hypothesis V : valid_user amd u.
Hypothesis HZ : new_zero amd u l codes q0 q.
Hypothesis HK : operations u <= 2 ^ 51.
Notation o := (q_options q0).
Notation Q := (exact_qp u). Notation W := (size_qp u).
Notation x := (vec_of (q_x q)). Notation y := (vec_of (q_y q)). Notation z := (vec_of (q_z q)). Notation s := (vec_of (q_s q)).
Notation t := (met u (B2R (reltol o))).
Notation e_dual := (t + gam u * Euclid (w_dual W x y z) (u_n u))%R.
Notation e_in := (t + gam u * Euclid (w_in W x s) (u_m u))%R.
Notation e_eq := (if u_pe u =? 0 then 0 else t + gam u * Euclid (w_eq W x) (u_pe u))%R.

(** The reported value is the objective of the mathematical problem at the returned point, up to rounding. *)
Theorem C80_value_binary64 : exists f, fval (q_stats q) = Some f /\
  (is_finite f = true -> (Rabs (B2R f - objective Q x) <= value_error u x)%R).
Proof.
  destruct HZ as [Hq E1 E2 Hn].
  destruct (C20_any_solve FA _ amd u l (Safe_total FA FA_total) V Hq) as [cs [qa [c [qb [E1' [E2' [Hf [_ H]]]]]]]].
  rewrite E1 in E1'. injection E1' as <- <-. rewrite E2 in E2'. injection E2' as Ec <-. apply app_inj_tail in Ec. destruct Ec as [_ <-].
  destruct H as [[_ [H2 _]]|[_ Hc]]; [|exfalso; rewrite Hf in Hc; destruct (_ =? _) in Hc; [discriminate Hc|congruence]].
  destruct (session_from FA _ (Safe_total FA FA_total) amd u V) as [qs [B [r [E0 [HS HF]]]]].
  destruct (HF _ Hq) as [q3 [E3 [HA Hi]]]. rewrite E2 in E3. injection E3 as _ <-.
  pose proof (reports_value FA _ (Safe_total FA FA_total) B q _ _ HA H2) as Ev. pose proof (at_pt _ _ _ _ HA) as HPt.
  set (pt := sn_pt FA (snd (callsF FA B (fresh FA B r) (l ++ [Solve FA])))) in *. clearbody pt.
  exists (fvalF FA B pt). split; [exact Ev|]. intros F.
  destruct (sd_B _ _ _ _ _ HS) as [Pf [Qf [par EB]]].
  pose proof V as V'. destruct V' as [Vn Vm [nzP VP] [nzG VG] VA Vc Vh Vs Vp].
  destruct (csc_link (f0 FA) _ _ _ _ _ _ Vn VP) as [CP [RP SP]].
  assert (EP : get 0 (u_Pjc u) (u_n u) = nzP) by (apply get_rd, (cp_last _ _ _ _ _ (ca_pattern _ _ _ _ _ _ VP))).
  assert (EG : 0 <= get 0 (u_Gjc u) (u_n u)).
  { destruct (csc_link (f0 FA) _ _ _ _ _ _ Vn VG) as [_ [_ SG]]. rewrite (get_rd _ _ _ _ (cp_last _ _ _ _ _ (ca_pattern _ _ _ _ _ _ VG))), <- SG. apply start_nonneg. }
  assert (EA : 0 <= match u_eqs u with Some (ajc, _, _, _) => get 0 ajc (u_n u) | None => 0 end).
  { change (car FA) with b64 in *. destruct (@u_eqs b64 u) as [[[[ajc air] apr] bb]|] eqn:Ee; [|lia].
    destruct (VA _ _ _ _ eq_refl) as [_ [[nz Hc] _]]. destruct (csc_link (f0 FA) _ _ _ _ _ _ Vn Hc) as [_ [R1 R2]].
    rewrite (get_rd _ _ _ _ (cp_last _ _ _ _ _ (ca_pattern _ _ _ _ _ _ Hc))), <- R2. apply start_nonneg. }
  pose proof (valid_pe FA amd u V) as Hpe.
  set (K := Z.to_nat (operations u)).
  pose proof (start_nonneg (column (f0 FA) (u_Pjc u) (u_Pir u) (u_Ppr u)) (u_n u)) as N1. change (car FA) with b64 in *.
  assert (KZ : Z.of_nat K = operations u) by (unfold K, operations; lia).
  assert (Gm : gamma K = gam u).
  { unfold gamma, gam. rewrite INR_IZR_INZ, KZ. unfold uu. change (-52) with (1 + -53). rewrite bpow_plus. change (bpow radix2 1) with 2%R. ring. }
  assert (Hg : (gamma K <= 1 / 2)%R).
  { rewrite Gm. unfold gam. apply Rle_trans with (IZR (2 ^ 51) * bpow radix2 (-52))%R; [apply Rmult_le_compat_r; [apply bpow_ge_0|apply IZR_le; lia]|].
    change (IZR (2 ^ 51)) with (bpow radix2 51). rewrite <- bpow_plus. change (bpow radix2 (51 + -52)) with (/ 2)%R. lra. }
  assert (HKK : start (pP B) (pn B) + pn B + 4 <= Z.of_nat K).
  { rewrite EB, KZ. unfold operations. cbn [prob_of pP pG pA pn pm pp]. change (car FA) with b64 in *. lia. }
  assert (Bn : pn B = u_n u) by (rewrite EB; reflexivity).
  pose proof (value_bound B pt ltac:(rewrite Bn; exact Vn) K HKK Hg F) as Hb.
  assert (QE : qp_of (mapB B2R B) = exact_qp u) by (rewrite EB; apply mapped_qp; reflexivity).
  assert (QA : qp_of (mapB absB B) = size_qp u) by (rewrite EB; apply mapped_qp; unfold absB; rewrite B2R_zero; apply Rabs_R0).
  destruct HPt as [Px Py Pz Ps].
  assert (Ex : eq_on (pn B) x (fun i => B2R (ptX FA pt i))) by (apply vec_pt; exact Px).
  rewrite QE, QA, Gm, Bn in Hb. rewrite Bn in Ex. unfold value_error.
  assert (Dn : dn (exact_qp u) = u_n u) by apply exact_dims.
  assert (Wn : dn (size_qp u) = u_n u) by (rewrite <- QA, <- Bn; reflexivity).
  rewrite (objective_ext (exact_qp u) x (fun i => B2R (ptX FA pt i))) by (rewrite Dn; exact Ex).
  assert (EW : w_objective W x = w_objective W (fun i => B2R (ptX FA pt i))).
  { unfold w_objective. rewrite Wn. f_equal; [f_equal|]; apply Sum_ext; intros i Hi'; rewrite (Ex i Hi'); [|reflexivity].
    f_equal. apply Sum_ext. intros j Hj. rewrite (Ex j Hj). reflexivity. }
  rewrite EW. rewrite (Sum_ext (u_n u) (fun i => Rabs (x i)) (fun i => Rabs (B2R (ptX FA pt i)))) by (intros i Hi'; rewrite (Ex i Hi'); reflexivity).
  exact Hb.
Qed.

(** It is close to the optimal value of that problem, from both sides. *)
Theorem C80_binary64 x0 y0 z0 : is_finite (reltol o) = true -> is_finite (abstol o) = true ->
  nonneg_vec (q_s q) (u_m u) -> nonneg_vec (q_z q) (u_m u) -> symmetric Q -> psd_on Q -> kkt_point Q x0 y0 z0 ->
  exists f, fval (q_stats q) = Some f /\ (is_finite f = true ->
    - (e_eq * Euclid y0 (u_pe u) + e_in * Euclid z0 (u_m u)) - value_error u x <= B2R f - objective Q x0 <=
    e_dual * dist (u_n u) x0 x + e_eq * Euclid y (u_pe u) + e_in * Euclid z (u_m u)
      + IZR (u_m u) * (B2R (abstol o) + bpow radix2 (-510)) + gam u * Sum (u_m u) (fun i => s i * z i) + value_error u x)%R.
Proof.
  intros Fr Fa Ns Nz Hs Hp K0. destruct C80_value_binary64 as [f [Ef Hf]]. exists f. split; [exact Ef|]. intros F. specialize (Hf F).
  destruct (exact_dims u) as [D1 [D2 D3]].
  destruct (C62_near_optimal amd u l codes q0 q V HZ HK Fr Fa x0 Ns Nz) as [_ [_ U]]. specialize (U Hs Hp (kp_feas _ _ _ _ K0)).
  destruct (zero_says amd u l codes q0 q V HZ HK Fr Fa) as [_ [_ [_ [[_ K2 K3] _]]]]. rewrite D2 in K2. rewrite D3 in K3.
  assert (K3' : (Euclid (res_eq Q x) (u_pe u) <= e_eq)%R).
  { destruct (Z.eqb_spec (u_pe u) 0) as [E0|E0]; [|apply K3; auto]. rewrite E0. unfold Euclid, Sum. rewrite zr_nil by lia. cbn [sumr]. rewrite sqrt_0. lra. }
  assert (Ps : forall i, 0 <= i < dm Q -> (0 <= s i)%R) by (intros i Hi; apply (nonneg_entry _ (u_m u)); auto; rewrite <- D2; exact Hi).
  rewrite <- D2 in K2 at 1. rewrite <- D3 in K3' at 1.
  pose proof (value_below Q x s x0 y0 z0 _ _ Hs Hp K0 Ps K3' K2) as L. rewrite D2, D3 in L.
  unfold dist. pose proof (Rle_abs (B2R f - objective Q x)) as A1. pose proof (Rle_abs (- (B2R f - objective Q x))) as A2. rewrite Rabs_Ropp in A2.
  change (car FA) with b64 in *. split; lra.
Qed.
End Binary64.
Print Assumptions C80_value_exact.
Print Assumptions C80_exact.
Print Assumptions C80_value_binary64.
Print Assumptions C80_binary64.

(** ** Cases: minimise x^2/2 subject to x >= 1, with solution x = 1, multiplier 1 and optimal value 1/2. *)
Lemma C80_case amd : exists q0 q, valid_user amd natural /\ earned_zero amd natural calls14 [2] q0 q /\ symmetric (user_qp natural) /\ psd_on (user_qp natural) /\
  kkt_point (user_qp natural) (fun _ => 1%R) (fun _ => 0%R) (fun _ => 1%R).
Proof.
  destruct (C14_any_case amd) as [q0 [q [V H]]]. destruct (C47_case amd) as [_ [_ [HS HP]]]. destruct (C78_case amd) as [_ [_ [_ [_ [HK _]]]]].
  exists q0, q. auto.
Qed.

Lemma C80_case_binary64 : exists q0 q f, valid_user noamd (small FA) /\ new_zero noamd (small FA) [SetOptions FA opt54] [] q0 q /\ operations (small FA) <= 2 ^ 51 /\
  is_finite (reltol (q_options q0)) = true /\ is_finite (abstol (q_options q0)) = true /\
  nonneg_vec (q_s q) (u_m (small FA)) /\ nonneg_vec (q_z q) (u_m (small FA)) /\ fval (q_stats q) = Some f /\ is_finite f = true /\
  symmetric (exact_qp (small FA)) /\ psd_on (exact_qp (small FA)) /\ kkt_point (exact_qp (small FA)) (fun _ => 1%R) (fun _ => 0%R) (fun _ => 1%R).
Proof.
  assert (C0 : match session FA noamd (small FA) [SetOptions FA opt54] with
    | Ok ([], q0) => is_finite (reltol (q_options q0)) && is_finite (abstol (q_options q0)) | _ => false end = true) by (vm_compute; reflexivity).
  assert (C : match session FA noamd (small FA) [SetOptions FA opt54; Solve FA] with
    | Ok ([c], q) => match rd (q_s q) 0, rd (q_z q) 0 with Ok a, Ok b => (c =? 0) && (pos_b a && pos_b b) | _, _ => false end &&
        match fval (q_stats q) with Some f => is_finite f | None => false end
    | _ => false end = true) by (vm_compute; reflexivity).
  destruct (session FA noamd (small FA) [SetOptions FA opt54]) as [[[|c0 l0] q0]| |] eqn:S0; try discriminate C0.
  destruct (session FA noamd (small FA) [SetOptions FA opt54; Solve FA]) as [[[|c [|]] q]| |] eqn:S1; try discriminate C.
  apply andb_true_iff in C0. destruct C0 as [Fr Fa]. apply andb_true_iff in C. destruct C as [C C4].
  destruct (rd (q_s q) 0) as [a| |] eqn:E1; try discriminate C. destruct (rd (q_z q) 0) as [b| |] eqn:E2; try discriminate C.
  apply andb_true_iff in C. destruct C as [C1 C2]. apply Z.eqb_eq in C1. subst c. apply andb_true_iff in C2. destruct C2 as [C2 C3].
  destruct (fval (q_stats q)) as [f|] eqn:Ef; [|discriminate C4].
  exists q0, q, f. split; [apply small_valid|].
  split; [constructor; [right; intros o [H|[H|[]]]; [injection H as <-; cbn; lia|discriminate H]|exact S0|exact S1|cbn; discriminate]|].
  split; [vm_compute; discriminate|]. split; [exact Fr|]. split; [exact Fa|].
  split; [intros i Hi; change (u_m (small FA)) with 1 in Hi; enum i; eexists; (split; [eassumption|apply pos_b_ok; assumption])|].
  split; [intros i Hi; change (u_m (small FA)) with 1 in Hi; enum i; eexists; (split; [eassumption|apply pos_b_ok; assumption])|].
  split; [exact Ef|]. split; [exact C4|]. clear.
  destruct (exact_dims (small FA)) as [D1 [D2 D3]]. change (u_n (small FA)) with 1 in D1. change (u_m (small FA)) with 1 in D2. change (u_pe (small FA)) with 0 in D3.
  set (Qs := exact_qp (small FA)) in *.
  assert (PE : dP Qs 0 0 = 1%R) by (transitivity (B2R (fofZ FA 1 : b64) + 0)%R; [reflexivity|]; rewrite val_1; lra).
  assert (GE : dG Qs 0 0 = (-1)%R) by (transitivity (B2R (fofZ FA (-1) : b64) + 0)%R; [reflexivity|]; rewrite val_m1; lra).
  assert (HE : dh Qs 0 = (-1)%R) by exact val_m1. assert (CE : dc Qs 0 = 0%R) by exact val_0. clearbody Qs.
  split; [intros i j Hi Hj; rewrite D1 in *; enum i; enum j; reflexivity|].
  split; [intros d; rewrite D1, !Sum1, PE; pose proof (Rle_0_sqr (d 0%Z)); unfold Rsqr in *; lra|].
  split.
  - intros j Hj. rewrite D1 in Hj. enum j. unfold res_dual. rewrite D1, D2, D3, !Sum1, Sum0, PE, GE, CE. ring.
  - split.
    + intros i Hi. rewrite D3 in Hi. lia.
    + intros i Hi. rewrite D2 in Hi. enum i. rewrite D1, Sum1, GE, HE. lra.
  - intros. lra.
  - intros i Hi. rewrite D2 in Hi. enum i. rewrite D1, Sum1, GE, HE. ring.
Qed.

(** Without the assumption that the reported value is finite nothing is known about it: minimise x^2/2 - 2^600 x subject to 0 <= 1.
    The test passes at x = 2^600, but x^2 overflows and the reported value is NaN. *)
Definition huge : user (car FA) :=
  mkUser 1 1 0 (zs [0; 1]) (zs [0]) (fs FA [1]) None None None (zs [0; 1]) (zs [0]) (fs FA [0]) (fs FA [- 2 ^ 600]) (fs FA [1]) None (f0 FA) (Some (zs [1; 0])).

Lemma huge_valid amd : valid_user amd huge.
Proof.
  constructor; cbn [huge u_n u_m u_p u_Pjc u_Pir u_Ppr u_Gjc u_Gir u_Gpr u_c u_h u_perm].
  - lia.
  - lia.
  - csc_concrete.
  - csc_concrete.
  - intros ajc air apr bb E. discriminate E.
  - intros i Hi. enum i; eexists; reflexivity.
  - intros i Hi. enum i; eexists; reflexivity.
  - exists 0, 0, (fofZ FA 1). split; [lia|]. left. exists 0, 1, 0. cbn. repeat split; auto; lia.
  - change (u_N huge) with 2. perm_concrete.
Qed.

Theorem C80_finite_value_refuted : exists amd u l codes q0 q, valid_user amd u /\ new_zero amd u l codes q0 q /\ operations u <= 2 ^ 51 /\
  finite_data u /\ nonneg_vec (q_s q) (u_m u) /\ nonneg_vec (q_z q) (u_m u) /\ is_finite (get B754_nan (q_x q) 0) = true /\
  exists f, fval (q_stats q) = Some f /\ is_nan f = true.
Proof.
  assert (C : match session FA noamd huge [Solve FA] with
    | Ok ([c], q) => match rd (q_s q) 0, rd (q_z q) 0 with Ok a, Ok b => (c =? 0) && (pos_b a && pos_b b) | _, _ => false end &&
        match fval (q_stats q) with Some f => is_nan f | None => false end && is_finite (get B754_nan (q_x q) 0)
    | _ => false end = true) by (vm_compute; reflexivity).
  assert (C0 : match session FA noamd huge [] with Ok ([], q) => true | _ => false end = true) by (vm_compute; reflexivity).
  destruct (session FA noamd huge []) as [[[|c0 l0] q0]| |] eqn:S0; try discriminate C0.
  destruct (session FA noamd huge [Solve FA]) as [[[|c [|]] q]| |] eqn:S1; try discriminate C.
  apply andb_true_iff in C. destruct C as [C C5]. apply andb_true_iff in C. destruct C as [C C4].
  destruct (rd (q_s q) 0) as [a| |] eqn:E1; try discriminate C. destruct (rd (q_z q) 0) as [b| |] eqn:E2; try discriminate C.
  apply andb_true_iff in C. destruct C as [C1 C2]. apply Z.eqb_eq in C1. subst c. apply andb_true_iff in C2. destruct C2 as [C2 C3].
  destruct (fval (q_stats q)) as [f|] eqn:Ef; [|discriminate C4].
  exists noamd, huge, [], [], q0, q. split; [apply huge_valid|].
  split; [constructor; [right; intros o0 [H|[]]; discriminate H|exact S0|exact S1|cbn; discriminate]|].
  split; [vm_compute; discriminate|].
  split.
  { pose proof (zero_says noamd huge [] [] q0 q (huge_valid noamd)) as Z0.
    assert (HZ : new_zero noamd huge [] [] q0 q) by (constructor; [right; intros o0 [H|[]]; discriminate H|exact S0|exact S1|cbn; discriminate]).
    specialize (Z0 HZ ltac:(vm_compute; discriminate)).
    assert (C6 : match session FA noamd huge [] with Ok (_, q) => is_finite (reltol (q_options q)) && is_finite (abstol (q_options q)) | _ => false end = true) by (vm_compute; reflexivity).
    rewrite S0 in C6. apply andb_true_iff in C6. destruct C6 as [F1 F2]. apply (Z0 F1 F2). }
  split; [intros i Hi; change (u_m huge) with 1 in Hi; enum i; eexists; (split; [eassumption|apply pos_b_ok; assumption])|].
  split; [intros i Hi; change (u_m huge) with 1 in Hi; enum i; eexists; (split; [eassumption|apply pos_b_ok; assumption])|].
  split; [exact C5|]. exists f. split; [exact Ef|exact C4].
Qed.
Print Assumptions C80_finite_value_refuted.
