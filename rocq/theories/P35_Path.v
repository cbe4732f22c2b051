(** C75: along every solve the equality constraints hold exactly and all inequalities are relaxed by one common
    amount, which only shrinks. *)
From Coq Require Import ZArith Reals List Lia Lra Bool.
From RecordUpdate Require Import RecordUpdate.
From Verif Require Import Res Arith Lists MSparse Csc MSolver QpSpec Api Demo PointR P5_Session P6_Codes StepSpec StepFacts P2_Kkt SafeInst LdlR VecOps Spec Session
  P7_Step StepUniq QpFacts P8_Problem P8_Cases.
Import ListNotations.
Open Scope Z_scope.

(** x satisfies Ax = b, and s is the slack of the inequalities Gx <= h + t with the same t in every row. *)
Definition relaxed_by (Q : QPdata) (v : vars) (t : R) : Prop :=
  (forall k, 0 <= k < dp Q -> Sum (dn Q) (fun j => dA Q k j * vx v j)%R = db Q k) /\
  (forall i, 0 <= i < dm Q -> vs v i = (dh Q i + t - Sum (dn Q) (fun j => dG Q i j * vx v j))%R).

(** Ax = b and Gx < h. *)
Definition strictly_feasible (Q : QPdata) (x : Z -> R) : Prop :=
  (forall k, 0 <= k < dp Q -> Sum (dn Q) (fun j => dA Q k j * x j)%R = db Q k) /\
  (forall i, 0 <= i < dm Q -> (Sum (dn Q) (fun j => dG Q i j * x j) < dh Q i)%R).

(** c + A'y + G'z exceeds 0 exactly by r times the sum of the rows of G. *)
Definition dual_relaxed_by (Q : QPdata) (v : vars) (r : R) : Prop :=
  forall j, 0 <= j < dn Q ->
    (dc Q j + Sum (dp Q) (fun k => dA Q k j * vy v k) + Sum (dm Q) (fun i => dG Q i j * (vz v i - r)))%R = 0%R.

Definition no_quadratic (Q : QPdata) : Prop := forall i j, 0 <= i < dn Q -> 0 <= j < dn Q -> dP Q i j = 0%R.

Section Facts.
Variable Q : QPdata.

Lemma relaxed_res v t : relaxed_by Q v t <->
  (forall k, 0 <= k < dp Q -> res_eq Q (vx v) k = 0%R) /\ (forall i, 0 <= i < dm Q -> res_in Q (vx v) (vs v) i = (- t)%R).
Proof.
  unfold relaxed_by, res_eq, res_in. split; intros [H1 H2]; (split; [intros k Hk; specialize (H1 k Hk); lra|intros i Hi; specialize (H2 i Hi); lra]).
Qed.

Lemma relaxed_ext v w t : vars_eq Q v w -> relaxed_by Q v t -> relaxed_by Q w t.
Proof.
  intros [X _ _ S0] H. apply relaxed_res in H. apply relaxed_res. destruct H as [H1 H2]. split; intros i Hi.
  - rewrite <- (res_eq_ext Q (vx v) (vx w)); auto.
  - rewrite <- (res_in_ext Q (vx v) (vx w) (vs v) (vs w)); auto.
Qed.

Lemma relaxed_unique v t t' : 1 <= dm Q -> relaxed_by Q v t -> relaxed_by Q v t' -> t = t'.
Proof. intros Hm [_ H1] [_ H2]. specialize (H1 0 ltac:(lia)). specialize (H2 0 ltac:(lia)). lra. Qed.

Lemma relaxed_feasible v : interior_vars Q v -> relaxed_by Q v 0 -> strictly_feasible Q (vx v).
Proof. intros HI [H1 H2]. split; auto. intros i Hi. specialize (H2 i Hi). destruct (HI i Hi) as [Hs _]. lra. Qed.

Lemma relaxed_norm v t : 0 <= dm Q -> relaxed_by Q v t -> Euclid (res_in Q (vx v) (vs v)) (dm Q) = (Rabs t * sqrt (IZR (dm Q)))%R.
Proof.
  intros Hm H. apply relaxed_res in H. destruct H as [_ H].
  rewrite (Euclid_ext _ (fun i => (- t) * 1)%R) by (intros i Hi; rewrite H by auto; ring).
  rewrite Euclid_scal, Rabs_Ropp. f_equal. unfold Euclid. f_equal.
  assert (G : forall k, 0 <= k -> Sum k (fun _ => 1 * 1)%R = IZR k).
  { intros k Hk. pattern k. apply natlike_ind; auto. intros j Hj IH. unfold Z.succ.
    rewrite Sum_split by lia. rewrite IH, plus_IZR. rewrite Sum1. ring. }
  apply G. exact Hm.
Qed.

Lemma dual_res v r : no_quadratic Q -> dual_relaxed_by Q v r <->
  (forall j, 0 <= j < dn Q -> res_dual Q (vx v) (vy v) (vz v) j = (- r * Sum (dm Q) (fun i => dG Q i j))%R).
Proof.
  intros HP. unfold dual_relaxed_by, res_dual. split; intros H j Hj; specialize (H j Hj);
    rewrite (Sum_ext (dm Q) (fun i => dG Q i j * (vz v i - r))%R (fun i => dG Q i j * vz v i - dG Q i j * r)%R) in * by (intros; ring);
    rewrite Sum_minus, Sum_scal_r in *;
    rewrite (Sum_zero (dn Q) (fun k => dP Q j k * vx v k)%R) in * by (intros k Hk; rewrite HP by auto; ring); lra.
Qed.

Lemma dual_ext v w r : vars_eq Q v w -> dual_relaxed_by Q v r -> dual_relaxed_by Q w r.
Proof.
  intros [_ Y Z0 _] H j Hj. rewrite <- (H j Hj). f_equal; [f_equal|]; apply Sum_ext; intros i Hi; [rewrite Y|rewrite Z0]; auto.
Qed.

(** The starting point. *)
Lemma start_relaxed e v : 1 <= dm Q -> (forall a, 0 <= a < dn Q + dp Q + dm Q -> e a = 0%R) -> 0 <= dn Q -> 0 <= dp Q -> start_point Q e v ->
  exists t, relaxed_by Q v t /\ (0 <= t)%R /\ (t = 0%R <-> strictly_feasible Q (vx v)) /\
    (t <> 0%R -> exists i, 0 <= i < dm Q /\ vs v i = 1%R).
Proof.
  intros Hm He Hn Hp [[t0 [_ [H2 _]]] [a [[L1 [i0 [Hi0 L2]]] Hs]] _].
  assert (H1 : forall k, 0 <= k < dp Q -> Sum (dn Q) (fun j => dA Q k j * vx v j)%R = db Q k).
  { intros k Hk. rewrite <- (H2 k Hk). rewrite He by lia. ring. }
  exists (if Rlt_dec 0 a then 0 else 1 - a)%R. split; [|split; [|split]].
  - split; auto. intros i Hi. rewrite (Hs i Hi). unfold slack. ring.
  - destruct (Rlt_dec 0 a); lra.
  - destruct (Rlt_dec 0 a) as [C|C]; split; auto.
    + intros _. split; auto. intros i Hi. specialize (L1 i Hi). unfold slack in L1. lra.
    + intros E. exfalso. lra.
    + intros [_ F]. exfalso. apply C. rewrite <- L2. unfold slack. specialize (F i0 Hi0). lra.
  - destruct (Rlt_dec 0 a) as [C|C]; [intros E; congruence|]. intros _. exists i0. split; auto. rewrite Hs, L2 by auto. destruct (Rlt_dec 0 a); lra.
Qed.

Lemma start_dual e v : (forall a, 0 <= a < dn Q + dp Q + dm Q -> e a = 0%R) -> 0 <= dn Q -> 0 <= dm Q -> 0 <= dp Q ->
  no_quadratic Q -> start_point Q e v -> exists r, dual_relaxed_by Q v r /\ (0 <= r)%R.
Proof.
  intros He Hn Hm Hp HP [[t0 [H1 [_ H3]]] _ [a [[_ [i0 [Hi0 L2]]] Hz]]].
  exists (if Rlt_dec a 0 then 0 else 1 + a)%R. split; [|destruct (Rlt_dec a 0); lra].
  intros j Hj. specialize (H1 j Hj). rewrite He in H1 by lia.
  rewrite (Sum_zero (dn Q)) in H1 by (intros c Hc; rewrite HP by auto; ring).
  rewrite (Sum_ext (dm Q) (fun i => dG Q i j * (vz v i - (if Rlt_dec a 0 then 0 else 1 + a)))%R (fun i => dG Q i j * t0 i)%R); [lra|].
  intros i Hi. f_equal. specialize (H3 i Hi). rewrite He in H3 by lia. rewrite (Hz i Hi). unfold slack. lra.
Qed.
End Facts.

Section Path.
Variables (amd : amd_t) (u : user R).
Hypothesis HV : valid_user amd u.
Hypothesis Hcov : covered u.
Hypothesis Hsym : symmetric (user_qp u).
Notation Q := (user_qp u).

(** C75: setup leaves a point that is relaxed by some t >= 0; t = 0 exactly if x is strictly feasible, otherwise
    the smallest slack is 1. *)
Theorem C75_start codes q : session RA amd u [] = Ok (codes, q) ->
  regular_order (u_N u) (kkt_matrix Q (fun _ => 1%R)) (order_in q) ->
  exists t, relaxed_by Q (vars_of q) t /\ (0 <= t)%R /\ (t = 0%R <-> strictly_feasible Q (hx q)) /\
    (t <> 0%R -> exists i, 0 <= i < dm Q /\ hs q i = 1%R).
Proof.
  intros E HR. destruct (C47_start_point amd u HV Hcov Hsym) as [q1 [E1 [_ [_ [_ [e [[_ He] HSt]]]]]]].
  rewrite E in E1. injection E1 as -> <-. destruct (dims_nonneg amd u HV) as [Dn [Dm Dp]].
  destruct (user_dims u) as [F1 [F2 F3]].
  assert (He' : forall a, 0 <= a < dn Q + dp Q + dm Q -> e a = 0%R) by (apply He; unfold u_N in HR; rewrite F1, F2, F3; exact HR).
  exact (start_relaxed Q e (vars_of q) Dm He' Dn Dp HSt).
Qed.

(** C75: one solve.  All its iterates are relaxed, by the amount at its start times the factors 1 - alpha_p. *)
Theorem C75_solve l q c q' k V sg ap ad t : solved amd u l q c q' k V sg ap ad ->
  (forall i, (i < k)%nat -> regular_at Q (order_in q) (V i)) -> relaxed_by Q (vars_of q) t ->
  (forall i, (i <= k)%nat -> relaxed_by Q (V i) (shrink ap i * t)%R /\ (0 <= shrink ap i <= 1)%R) /\
  relaxed_by Q (vars_of q') (shrink ap k * t)%R.
Proof.
  intros HT HR H0. pose proof HT as [cs [_ [_ M]]].
  assert (G : forall i, (i <= k)%nat -> relaxed_by Q (V i) (shrink ap i * t)%R /\ (0 <= shrink ap i <= 1)%R).
  { induction i as [|i IH]; intros Hi; cbn [shrink].
    - split; [|lra]. rewrite Rmult_1_l. eapply relaxed_ext; [apply vars_eq_sym; apply (sm_from _ _ _ _ _ _ _ _ _ M)|exact H0].
    - destruct (IH ltac:(lia)) as [I1 I2]. destruct (C21_primal_residuals _ _ _ _ _ _ _ _ _ _ _ HT HV i ltac:(lia) (HR i ltac:(lia))) as [H1 H2].
      destruct (C13_step_lengths _ _ _ _ _ _ _ _ _ _ _ HT i ltac:(lia)) as [Ha _].
      apply relaxed_res in I1. destruct I1 as [I3 I4]. split.
      + apply relaxed_res. split; intros j Hj; [rewrite H1, I3 by auto; ring|rewrite H2, I4 by auto; ring].
      + split; [apply Rmult_le_pos; lra|]. apply Rle_trans with (1 * 1)%R; [|lra]. apply Rmult_le_compat; lra. }
  split; [exact G|]. eapply relaxed_ext; [apply (sm_to _ _ _ _ _ _ _ _ _ M)|]. apply G. lia.
Qed.

(** C75: any calls.  The handle's point is relaxed, by no more than the starting point. *)
Theorem C75_session l codes q : quiet_calls RA u l -> regular_session amd u l -> session RA amd u l = Ok (codes, q) ->
  exists codes0 q0 t0 t, session RA amd u [] = Ok (codes0, q0) /\ relaxed_by Q (vars_of q0) t0 /\ relaxed_by Q (vars_of q) t /\ (0 <= t <= t0)%R.
Proof.
  destruct (C47_start_point amd u HV Hcov Hsym) as [q0 [E0 _]].
  revert codes q. induction l as [|[o|] l IH] using rev_ind; intros codes q Hq HG E.
  - destruct (C75_start codes q E (rs_start _ _ _ HG _ _ E)) as [t [H1 [H2 _]]]. exists codes, q, t, t. repeat split; auto; lra || apply H1.
  - destruct (session_set RA amd u l o _ _ E) as [p1 [F1 ->]].
    destruct (IH _ _ (quiet_prefix _ _ _ _ Hq) (regular_prefix _ _ _ _ HG) F1) as [c0 [q1 [t0 [t [H1 [H2 [H3 H4]]]]]]].
    exists c0, q1, t0, t. auto.
  - destruct (exact_trace amd u l HV Hcov Hsym Hq) as [p1 [c1 [p1' [k1 [W1 [sg1 [ap1 [ad1 T1]]]]]]]].
    pose proof T1 as [cs1 [F1 [F1' M1]]]. rewrite E in F1'. injection F1' as -> <-.
    destruct (IH _ _ (quiet_prefix _ _ _ _ Hq) (regular_prefix _ _ _ _ HG) F1) as [c0 [q1 [t0 [t [H1 [H2 [H3 H4]]]]]]].
    destruct (C75_solve l p1 c1 q k1 W1 sg1 ap1 ad1 t T1) as [G1 G2]; auto.
    { intros i Hi. eapply (rs_solves _ _ _ HG l []); eauto. }
    exists c0, q1, t0, (shrink ap1 k1 * t)%R. split; auto. split; auto. split; auto.
    destruct (G1 k1 ltac:(lia)) as [_ [S1 S2]]. split; [apply Rmult_le_pos; lra|].
    apply Rle_trans with (1 * t)%R; [apply Rmult_le_compat_r; lra|lra].
Qed.

(** Every solve of the calls, with the relaxation at its start. *)
Lemma solve_in l l1 l2 q c q' k V sg ap ad : quiet_calls RA u l -> regular_session amd u l -> l = l1 ++ Solve RA :: l2 ->
  solved amd u l1 q c q' k V sg ap ad ->
  (forall i, (i < k)%nat -> regular_at Q (order_in q) (V i)) /\
  exists codes0 q0 t0 t, session RA amd u [] = Ok (codes0, q0) /\ relaxed_by Q (vars_of q0) t0 /\ relaxed_by Q (vars_of q) t /\ (0 <= t <= t0)%R.
Proof.
  intros Hq HG -> HT. pose proof HT as [cs [F _]]. split.
  - intros i Hi. eapply (rs_solves _ _ _ HG l1 l2); eauto.
  - apply (C75_session l1 cs q (quiet_prefix _ _ _ _ Hq) (regular_prefix _ _ _ _ HG) F).
Qed.

(** C75: every iterate of every solve. *)
Theorem C75_iterates l l1 l2 q c q' k V sg ap ad i : quiet_calls RA u l -> regular_session amd u l -> l = l1 ++ Solve RA :: l2 ->
  solved amd u l1 q c q' k V sg ap ad -> (i <= k)%nat ->
  exists t, (0 <= t)%R /\ relaxed_by Q (V i) t /\
    (forall j, 0 <= j < dm Q -> (Sum (dn Q) (fun x => dG Q j x * vx (V i) x) < dh Q j + t)%R) /\
    Euclid (res_in Q (vx (V i)) (vs (V i))) (dm Q) = (t * sqrt (IZR (dm Q)))%R.
Proof.
  intros Hq HG El HT Hi. destruct (solve_in _ _ _ _ _ _ _ _ _ _ _ Hq HG El HT) as [HR [c0 [q0 [t0 [t [_ [_ [H2 H3]]]]]]]].
  destruct (C75_solve l1 q c q' k V sg ap ad t HT HR H2) as [G _]. destruct (G i Hi) as [G1 G2]. exists (shrink ap i * t)%R.
  assert (P : (0 <= shrink ap i * t)%R) by (apply Rmult_le_pos; lra). pose proof HT as [cs [_ [_ M]]].
  split; auto. split; auto. split.
  - intros j Hj. destruct G1 as [_ G1]. specialize (G1 j Hj). destruct (sm_int _ _ _ _ _ _ _ _ _ M i Hi j Hj) as [Hs _]. lra.
  - rewrite (relaxed_norm Q (V i) _ ltac:(pose proof (dims_nonneg amd u HV); lia) G1), Rabs_pos_eq; auto.
Qed.

(** C75: if the starting x is strictly feasible, so is x in every iterate and after every call. *)
Theorem C75_feasible l codes q : quiet_calls RA u l -> regular_session amd u l -> session RA amd u l = Ok (codes, q) ->
  (forall codes0 q0, session RA amd u [] = Ok (codes0, q0) -> strictly_feasible Q (hx q0)) ->
  strictly_feasible Q (hx q) /\
  forall l1 l2 q1 c q1' k V sg ap ad i, l = l1 ++ Solve RA :: l2 -> solved amd u l1 q1 c q1' k V sg ap ad -> (i <= k)%nat ->
    strictly_feasible Q (vx (V i)).
Proof.
  intros Hq HG E HF. destruct (dims_nonneg amd u HV) as [_ [Dm _]].
  assert (Z0 : forall c0 q0 t0, session RA amd u [] = Ok (c0, q0) -> relaxed_by Q (vars_of q0) t0 -> t0 = 0%R).
  { intros c0 q0 t0 E0 H0. destruct (C75_start c0 q0 E0 (rs_start _ _ _ HG _ _ E0)) as [t [H1 [_ [H2 _]]]].
    rewrite (relaxed_unique Q (vars_of q0) t0 t Dm H0 H1). apply H2. eapply HF; eauto. }
  split.
  - destruct (C75_session l codes q Hq HG E) as [c0 [q0 [t0 [t [E0 [H0 [H1 H2]]]]]]]. rewrite (Z0 c0 q0 t0 E0 H0) in H2.
    assert (t = 0%R) by lra. subst t. apply (relaxed_feasible Q (vars_of q)); auto. apply (handle_after amd u l codes q HV Hq E).
  - intros l1 l2 q1 c q1' k V sg ap ad i El HT Hi.
    destruct (solve_in _ _ _ _ _ _ _ _ _ _ _ Hq HG El HT) as [HR [c0 [q0 [t0 [t [E0 [H0 [H2 H3]]]]]]]]. rewrite (Z0 c0 q0 t0 E0 H0) in H3.
    assert (t = 0%R) by lra. subst t. destruct (C75_solve l1 q1 c q1' k V sg ap ad 0 HT HR H2) as [G _]. destruct (G i Hi) as [G1 _].
    rewrite Rmult_0_r in G1. pose proof HT as [cs [_ [_ M]]]. apply relaxed_feasible; auto. apply (sm_int _ _ _ _ _ _ _ _ _ M i Hi).
Qed.

(** C75: a full primal step makes x strictly feasible for good; so if no point is strictly feasible, no solve ever
    takes a full primal step and the relaxation stays positive. *)
Theorem C75_full_step l l1 l2 q c q' k V sg ap ad i j : quiet_calls RA u l -> regular_session amd u l -> l = l1 ++ Solve RA :: l2 ->
  solved amd u l1 q c q' k V sg ap ad -> (i < j <= k)%nat -> ap i = 1%R -> strictly_feasible Q (vx (V j)).
Proof.
  intros Hq HG El HT Hj Ha. destruct (solve_in _ _ _ _ _ _ _ _ _ _ _ Hq HG El HT) as [HR [c0 [q0 [t0 [t [_ [_ [H2 H3]]]]]]]].
  destruct (C75_solve l1 q c q' k V sg ap ad t HT HR H2) as [G _]. destruct (G j ltac:(lia)) as [G1 _].
  assert (Es : shrink ap j = 0%R).
  { clear G1. induction j as [|j IH]; [lia|]. cbn [shrink]. destruct (Nat.eq_dec i j) as [->|]; [rewrite Ha; ring|]. rewrite IH by lia. ring. }
  rewrite Es, Rmult_0_l in G1. pose proof HT as [cs [_ [_ M]]]. apply relaxed_feasible; auto. apply (sm_int _ _ _ _ _ _ _ _ _ M). lia.
Qed.

Theorem C75_infeasible l l1 l2 q c q' k V sg ap ad : quiet_calls RA u l -> regular_session amd u l -> l = l1 ++ Solve RA :: l2 ->
  solved amd u l1 q c q' k V sg ap ad -> (forall x, ~ strictly_feasible Q x) ->
  (forall i, (i < k)%nat -> (0 < ap i < 1)%R) /\ exists t, (0 < t)%R /\ relaxed_by Q (vars_of q') t.
Proof.
  intros Hq HG El HT HN. destruct (solve_in _ _ _ _ _ _ _ _ _ _ _ Hq HG El HT) as [HR [c0 [q0 [t0 [t [_ [_ [H2 H3]]]]]]]].
  assert (P : forall i, (i < k)%nat -> (0 < ap i < 1)%R).
  { intros i Hi. destruct (C13_step_lengths _ _ _ _ _ _ _ _ _ _ _ HT i Hi) as [Ha _]. split; [lra|].
    destruct (Req_dec (ap i) 1) as [C|C]; [|lra]. exfalso.
    apply (HN (vx (V k))). apply (C75_full_step l l1 l2 q c q' k V sg ap ad i k Hq HG El HT); auto. }
  split; auto. destruct (C75_solve l1 q c q' k V sg ap ad t HT HR H2) as [G G3]. destruct (G k ltac:(lia)) as [G1 G2].
  exists (shrink ap k * t)%R. split; auto. assert (0 <= shrink ap k * t)%R by (apply Rmult_le_pos; lra).
  destruct (Req_dec (shrink ap k * t) 0) as [C|C]; [|lra]. exfalso. rewrite C in G1. pose proof HT as [cs [_ [_ M]]].
  apply (HN (vx (V k))). apply relaxed_feasible; auto. apply (sm_int _ _ _ _ _ _ _ _ _ M). lia.
Qed.

(** C75: with primal steps of length at least a the relaxation shrinks geometrically. *)
Theorem C75_rate l q c q' k V sg ap ad t a : solved amd u l q c q' k V sg ap ad ->
  (forall i, (i < k)%nat -> regular_at Q (order_in q) (V i)) -> relaxed_by Q (vars_of q) t -> (0 <= t)%R ->
  (forall i, (i < k)%nat -> (a <= ap i)%R) -> exists t', relaxed_by Q (vars_of q') t' /\ (0 <= t' <= (1 - a) ^ k * t)%R.
Proof.
  intros HT HR H0 Ht Ha. destruct (C75_solve l q c q' k V sg ap ad t HT HR H0) as [G G3]. exists (shrink ap k * t)%R. split; auto.
  destruct (G k ltac:(lia)) as [_ G2]. split; [apply Rmult_le_pos; lra|]. apply Rmult_le_compat_r; auto.
  assert (S : forall i, (i <= k)%nat -> (0 <= shrink ap i <= (1 - a) ^ i)%R); [|apply S; lia].
  induction i as [|i IH]; intros Hi; cbn [shrink pow]; [lra|]. specialize (IH ltac:(lia)). specialize (Ha i ltac:(lia)).
  destruct (C13_step_lengths _ _ _ _ _ _ _ _ _ _ _ HT i ltac:(lia)) as [Hb _].
  split; [apply Rmult_le_pos; lra|]. apply Rmult_le_compat; lra.
Qed.

(** C75: after exit code 0 the common violation is below the tolerance divided by sqrt m. *)
Theorem C75_optimal l q c q' k V sg ap ad t : solved amd u l q c q' k V sg ap ad ->
  (forall i, (i < k)%nat -> regular_at Q (order_in q) (V i)) -> relaxed_by Q (vars_of q) t -> (0 <= t)%R ->
  Z.of_nat k < maxit (q_options q) ->
  (forall j, 0 <= j < dp Q -> Sum (dn Q) (fun x => dA Q j x * hx q' x)%R = db Q j) /\
  (forall j, 0 <= j < dm Q -> (Sum (dn Q) (fun x => dG Q j x * hx q' x) < dh Q j + reltol (q_options q) / sqrt 3 / sqrt (IZR (dm Q)))%R).
Proof.
  intros HT HR H0 Ht Hk. destruct (C75_solve l q c q' k V sg ap ad t HT HR H0) as [G G3]. pose proof HT as [cs [_ [_ M]]].
  destruct (G k ltac:(lia)) as [_ G2]. destruct (dims_nonneg amd u HV) as [_ [Dm _]].
  split; [apply G3|]. intros j Hj.
  assert (Hs : (0 < hs q' j)%R).
  { destruct (sm_int _ _ _ _ _ _ _ _ _ M k ltac:(lia) j Hj) as [Hs _]. destruct (sm_to _ _ _ _ _ _ _ _ _ M) as [_ _ _ S0].
    rewrite (S0 j Hj) in Hs. exact Hs. }
  pose proof (relaxed_norm Q (vars_of q') _ ltac:(lia) G3) as EN. rewrite Rabs_pos_eq in EN by (apply Rmult_le_pos; lra).
  destruct (sm_stop _ _ _ _ _ _ _ _ _ M Hk) as [_ [T _]]. cbn [vars_of vx vs] in EN. cbn [car RA] in *. rewrite EN in T.
  assert (Hm : (0 < sqrt (IZR (dm Q)))%R) by (apply sqrt_lt_R0; apply (IZR_lt 0); lia).
  assert (T' : (shrink ap k * t < reltol (q_options q) / sqrt 3 / sqrt (IZR (dm Q)))%R).
  { apply Rmult_lt_reg_r with (sqrt (IZR (dm Q))); auto. eapply Rlt_le_trans; [exact T|]. right.
    assert (H3 : (0 < sqrt 3)%R) by (apply sqrt_lt_R0; lra). field. split; lra. }
  destruct G3 as [_ G3]. specialize (G3 j Hj). cbn [vars_of vx vs] in G3. lra.
Qed.

(** C75: linear programs (P = 0).  The dual constraints are relaxed in the same way: some r >= 0, the same for all
    inequalities, can be taken off the multipliers to satisfy c + A'y + G'z = 0 exactly; r shrinks by 1 - alpha_d. *)
Theorem C75_dual_start codes q : no_quadratic Q -> session RA amd u [] = Ok (codes, q) ->
  regular_order (u_N u) (kkt_matrix Q (fun _ => 1%R)) (order_in q) -> exists r, dual_relaxed_by Q (vars_of q) r /\ (0 <= r)%R.
Proof.
  intros HP E HR. destruct (C47_start_point amd u HV Hcov Hsym) as [q1 [E1 [_ [_ [_ [e [[_ He] HSt]]]]]]].
  rewrite E in E1. injection E1 as -> <-. destruct (dims_nonneg amd u HV) as [Dn [Dm Dp]].
  destruct (user_dims u) as [F1 [F2 F3]].
  assert (He' : forall a, 0 <= a < dn Q + dp Q + dm Q -> e a = 0%R) by (apply He; unfold u_N in HR; rewrite F1, F2, F3; exact HR).
  exact (start_dual Q e (vars_of q) He' Dn ltac:(lia) Dp HP HSt).
Qed.

Theorem C75_dual_solve l q c q' k V sg ap ad r : no_quadratic Q -> solved amd u l q c q' k V sg ap ad ->
  (forall i, (i < k)%nat -> regular_at Q (order_in q) (V i)) -> dual_relaxed_by Q (vars_of q) r ->
  (forall i, (i <= k)%nat -> dual_relaxed_by Q (V i) (shrink ad i * r)%R /\ (0 <= shrink ad i <= 1)%R) /\
  dual_relaxed_by Q (vars_of q') (shrink ad k * r)%R.
Proof.
  intros HP HT HR H0. pose proof HT as [cs [_ [_ M]]].
  assert (G : forall i, (i <= k)%nat -> dual_relaxed_by Q (V i) (shrink ad i * r)%R /\ (0 <= shrink ad i <= 1)%R).
  { induction i as [|i IH]; intros Hi; cbn [shrink].
    - split; [|lra]. rewrite Rmult_1_l. eapply dual_ext; [apply vars_eq_sym; apply (sm_from _ _ _ _ _ _ _ _ _ M)|exact H0].
    - destruct (IH ltac:(lia)) as [I1 I2].
      destruct (C13_step_lengths _ _ _ _ _ _ _ _ _ _ _ HT i ltac:(lia)) as [_ [Ha _]]. split.
      + apply (dual_res _ _ _ HP). intros j Hj. rewrite (C22_dual_residual _ _ _ _ _ _ _ _ _ _ _ HT HV i j ltac:(lia) (HR i ltac:(lia)) Hj).
        rewrite (proj1 (dual_res _ _ _ HP) I1 j Hj).
        rewrite (Sum_zero (dn Q)) by (intros x Hx; rewrite HP by auto; ring). ring.
      + split; [apply Rmult_le_pos; lra|]. apply Rle_trans with (1 * 1)%R; [|lra]. apply Rmult_le_compat; lra. }
  split; [exact G|]. eapply dual_ext; [apply (sm_to _ _ _ _ _ _ _ _ _ M)|]. apply G. lia.
Qed.

Theorem C75_dual_session l codes q : no_quadratic Q -> quiet_calls RA u l -> regular_session amd u l -> session RA amd u l = Ok (codes, q) ->
  exists codes0 q0 r0 r, session RA amd u [] = Ok (codes0, q0) /\ dual_relaxed_by Q (vars_of q0) r0 /\ dual_relaxed_by Q (vars_of q) r /\ (0 <= r <= r0)%R.
Proof.
  intros HP. revert codes q. induction l as [|[o|] l IH] using rev_ind; intros codes q Hq HG E.
  - destruct (C75_dual_start codes q HP E (rs_start _ _ _ HG _ _ E)) as [r [H1 H2]]. exists codes, q, r, r. repeat split; auto; lra.
  - destruct (session_set RA amd u l o _ _ E) as [p1 [F1 ->]].
    destruct (IH _ _ (quiet_prefix _ _ _ _ Hq) (regular_prefix _ _ _ _ HG) F1) as [c0 [q1 [t0 [t [H1 [H2 [H3 H4]]]]]]].
    exists c0, q1, t0, t. auto.
  - destruct (exact_trace amd u l HV Hcov Hsym Hq) as [p1 [c1 [p1' [k1 [W1 [sg1 [ap1 [ad1 T1]]]]]]]].
    pose proof T1 as [cs1 [F1 [F1' M1]]]. rewrite E in F1'. injection F1' as -> <-.
    destruct (IH _ _ (quiet_prefix _ _ _ _ Hq) (regular_prefix _ _ _ _ HG) F1) as [c0 [q1 [t0 [t [H1 [H2 [H3 H4]]]]]]].
    destruct (C75_dual_solve l p1 c1 q k1 W1 sg1 ap1 ad1 t HP T1) as [G1 G2]; auto.
    { intros i Hi. eapply (rs_solves _ _ _ HG l []); eauto. }
    exists c0, q1, t0, (shrink ad1 k1 * t)%R. split; auto. split; auto. split; auto.
    destruct (G1 k1 ltac:(lia)) as [_ [S1 S2]]. split; [apply Rmult_le_pos; lra|].
    apply Rle_trans with (1 * t)%R; [apply Rmult_le_compat_r; lra|lra].
Qed.
End Path.

(** ** Cases: one variable, one inequality: minimise a x^2/2 + b x subject to g x <= h *)
Definition tiny (a b g h : Z) (perm : list Z) : user R :=
  mkUser 1 1 0 (zs [0; 1]) (zs [0]) (fs RA [a]) None None None (zs [0; 1]) (zs [0]) (fs RA [g]) (fs RA [b]) (fs RA [h]) None 0%R (Some (zs perm)).

Section Tiny.
Variables (a b g h : Z) (perm : list Z).
Notation T := (user_qp (tiny a b g h perm)).
Lemma tiny_P : dP T 0 0 = IZR a. Proof. cbv - [Rplus IZR]. lra. Qed.
Lemma tiny_G : dG T 0 0 = IZR g. Proof. cbv - [Rplus IZR]. lra. Qed.
Lemma tiny_c : dc T 0 = IZR b. Proof. reflexivity. Qed.
Lemma tiny_h : dh T 0 = IZR h. Proof. reflexivity. Qed.
Lemma tiny_sym : symmetric T.
Proof. intros i j Hi Hj. change (dn T) with 1 in *. enum i. enum j. reflexivity. Qed.
Lemma tiny_covered : covered (tiny a b g h perm).
Proof. intros i Hi. change (u_m (tiny a b g h perm)) with 1 in Hi. enum i. exists 0, (IZR g). split; [cbn; lia|]. exists 0, 1, 0. cbn. repeat split; auto; lia. Qed.
Lemma tiny_valid amd : permutation_array (zs perm) 2 -> valid_user amd (tiny a b g h perm).
Proof.
  intros Hp. constructor; cbn [tiny u_n u_m u_p u_Pjc u_Pir u_Ppr u_Gjc u_Gir u_Gpr u_c u_h u_perm].
  - lia.
  - lia.
  - csc_concrete.
  - csc_concrete.
  - intros ajc air apr bb E. discriminate E.
  - intros i Hi. enum i; eexists; reflexivity.
  - intros i Hi. enum i; eexists; reflexivity.
  - exists 0, 0, (fofZ RA a). split; [lia|]. left. exists 0, 1, 0. cbn. repeat split; auto; lia.
  - exact Hp.
Qed.
Lemma tiny_matrix w i j : 0 <= i < 2 -> 0 <= j < 2 ->
  kkt_matrix T w i j = (if i =? 0 then (if j =? 0 then IZR a else IZR g) else if j =? 0 then IZR g else - w 0%Z)%R.
Proof.
  intros Hi Hj. enum i; enum j; unfold kkt_matrix; change (dn T) with 1; change (dp T) with 0; cbn [Z.ltb Z.compare Z.eqb Pos.compare Pos.compare_cont].
  - apply tiny_P.
  - apply tiny_G.
  - apply tiny_G.
  - reflexivity.
Qed.
End Tiny.

Lemma tiny_forward a b g h perm w ord : 1 <= a -> (1 / 100000000000000 < w 0%Z + IZR g * IZR g / IZR a)%R -> (forall i, 0 <= i < 2 -> ord i = i) ->
  regular_order 2 (kkt_matrix (user_qp (tiny a b g h perm)) w) ord.
Proof.
  intros Ha Hw Ho. assert (A1 : (1 <= IZR a)%R) by (apply IZR_le; lia).
  exists (fun i j => if i =? j then 1%R else if j <? i then (IZR g / IZR a)%R else 0%R),
    (fun j => if j =? 0 then IZR a else (- w 0%Z - IZR g * IZR g / IZR a)%R).
  split; [|split; [|split]].
  - intros i Hi. rewrite Z.eqb_refl. reflexivity.
  - intros i j Hi Hj. destruct (Z.eqb_spec i j); [lia|]. destruct (Z.ltb_spec j i); [lia|]. reflexivity.
  - intros i j Hi Hj. rewrite !Ho, tiny_matrix by auto. rewrite Sum2. enum i; enum j; cbn [Z.eqb Z.ltb Z.compare Pos.eqb]; field; lra.
  - intros j Hj. enum j; cbn [Z.eqb]; [rewrite Rabs_pos_eq; lra|rewrite Rabs_left; lra].
Qed.

Lemma tiny_reverse a b g h perm w ord : (1 / 100000000000000 < w 0%Z)%R -> (1 / 100000000000000 < IZR a + IZR g * IZR g / w 0%Z)%R ->
  (forall i, 0 <= i < 2 -> ord i = 1 - i) -> regular_order 2 (kkt_matrix (user_qp (tiny a b g h perm)) w) ord.
Proof.
  intros Hw Hd Ho.
  exists (fun i j => if i =? j then 1%R else if j <? i then (- (IZR g / w 0%Z))%R else 0%R),
    (fun j => if j =? 0 then (- w 0%Z)%R else (IZR a + IZR g * IZR g / w 0%Z)%R).
  split; [|split; [|split]].
  - intros i Hi. rewrite Z.eqb_refl. reflexivity.
  - intros i j Hi Hj. destruct (Z.eqb_spec i j); [lia|]. destruct (Z.ltb_spec j i); [lia|]. reflexivity.
  - intros i j Hi Hj. rewrite !Ho, tiny_matrix by lia. rewrite Sum2.
    change (0 =? 1) with false. enum i; enum j; change (1 - 0) with 1; change (1 - 1) with 0; cbn [Z.eqb Z.ltb Z.compare Pos.eqb Pos.compare Pos.compare_cont]; field; lra.
  - intros j Hj. enum j; cbn [Z.eqb]; [rewrite Rabs_left; lra|rewrite Rabs_pos_eq; lra].
Qed.

(** One iteration from a regular start is a regular session. *)
Lemma first_regular amd u : valid_user amd u -> covered u -> symmetric (user_qp u) ->
  (forall q, session RA amd u [] = Ok ([], q) -> regular_order (u_N u) (kkt_matrix (user_qp u) (fun _ => 1%R)) (order_in q) /\
     regular_at (user_qp u) (order_in q) (vars_of q)) ->
  regular_session amd u [SetOptions RA one_iteration; Solve RA].
Proof.
  intros V Hc Hs H. destruct (C47_start_point amd u V Hc Hs) as [q0 [E0 [O0 _]]]. destruct (H q0 E0) as [H1 H2]. split.
  - intros codes q E. rewrite E0 in E. injection E as <- <-. exact H1.
  - intros l1 l2 q c q' k V0 sg ap ad E HT i Hi. apply only_solve in E. subst l1. destruct HT as [cs [F1 [F2 M]]].
    destruct (session_set RA amd u [] one_iteration cs q F1) as [q1 [G1 Eq]]. rewrite E0 in G1. injection G1 as <- <-.
    pose proof (sm_limit _ _ _ _ _ _ _ _ _ M) as HL.
    assert (Eo : @q_options R q = one_iteration) by (rewrite Eq; reflexivity). rewrite Eo in HL. cbn in HL.
    assert (i = O) by lia. subst i. destruct (sm_from _ _ _ _ _ _ _ _ _ M) as [_ _ Z0 Z1].
    unfold regular_at in *. destruct (user_dims u) as [D1 [D2 D3]].
    eapply regular_order_ext; [| | |exact H2].
    + intros j Hj. rewrite Eq. reflexivity.
    + intros j Hj. destruct O0 as [O0 _]. specialize (O0 j). unfold u_N in O0. rewrite D1, D2, D3 in *. apply O0. exact Hj.
    + intros i0 j0 Hi0 Hj0. unfold kkt_matrix. repeat match goal with |- context[if ?b then _ else _] => destruct b eqn:? end; auto.
      rewrite (Z0 (j0 - dn (user_qp u) - dp (user_qp u))), (Z1 (j0 - dn (user_qp u) - dp (user_qp u))) by lia.
      cbn [vars_of vs vz]. rewrite Eq. reflexivity.
Qed.

(** Starting values. *)
Lemma tiny_start a b g h perm x v e : (0 < IZR a + IZR g * IZR g)%R -> ((IZR a + IZR g * IZR g) * x = IZR g * IZR h - IZR b)%R -> (forall i, 0 <= i < 2 -> e i = 0%R) ->
  start_point (user_qp (tiny a b g h perm)) e v ->
  let sl := (IZR h - IZR g * x)%R in
  vx v 0 = x /\ vs v 0 = (if Rlt_dec 0 sl then sl else 1)%R /\ vz v 0 = (if Rlt_dec sl 0 then - sl else 1)%R.
Proof.
  intros Hd Hx He [[t [H1 [_ H3]]] [a0 [[_ [i [Hi Ea]]] Hs]] [b0 [[_ [j [Hj Eb]]] Hz]]] sl.
  set (T := user_qp (tiny a b g h perm)) in *.
  change (dn T) with 1 in *. change (dm T) with 1 in *. change (dp T) with 0 in *. enum i. enum j.
  specialize (H1 0 ltac:(lia)). specialize (H3 0 ltac:(lia)). specialize (Hs 0 ltac:(lia)). specialize (Hz 0 ltac:(lia)).
  change (1 + 0 + 0) with 1 in H3. rewrite !He in * by lia. unfold slack in *. change (dn T) with 1 in *.
  rewrite ?Sum0, ?Sum1 in *. unfold T in H1, H3, Hs, Hz, Ea, Eb. rewrite ?tiny_P, ?tiny_G, ?tiny_c, ?tiny_h in *.
  assert (X : vx v 0 = x).
  { apply Rmult_eq_reg_l with (IZR a + IZR g * IZR g)%R; [|lra]. rewrite Hx.
    assert (Et : (t 0%Z = IZR g * vx v 0%Z - IZR h)%R) by lra. rewrite Et in H1. lra. }
  rewrite X in Hs, Hz, Ea, Eb. fold sl in Hs, Hz, Ea, Eb. split; auto. subst a0 b0.
  destruct (Rlt_dec 0 sl), (Rlt_dec sl 0); lra.
Qed.

Lemma tiny_handle amd a b g h perm x q : valid_user amd (tiny a b g h perm) -> (0 < IZR a + IZR g * IZR g)%R -> ((IZR a + IZR g * IZR g) * x = IZR g * IZR h - IZR b)%R ->
  session RA amd (tiny a b g h perm) [] = Ok ([], q) ->
  regular_order 2 (kkt_matrix (user_qp (tiny a b g h perm)) (fun _ => 1%R)) (order_in q) ->
  let sl := (IZR h - IZR g * x)%R in
  hx q 0 = x /\ hs q 0 = (if Rlt_dec 0 sl then sl else 1)%R /\ hz q 0 = (if Rlt_dec sl 0 then - sl else 1)%R.
Proof.
  intros V Hd Hx E HR. destruct (C47_start_point amd _ V (tiny_covered a b g h perm) (tiny_sym a b g h perm)) as [q1 [E1 [_ [_ [_ [e [[_ He] HSt]]]]]]].
  rewrite E in E1. injection E1 as <-. apply (tiny_start a b g h perm x (vars_of q) e Hd Hx); auto.
Qed.

(** One iteration of a tiny problem is a regular session if the first two matrices are. *)
Lemma tiny_regular amd a b g h perm x f : valid_user amd (tiny a b g h perm) -> (0 < IZR a + IZR g * IZR g)%R -> ((IZR a + IZR g * IZR g) * x = IZR g * IZR h - IZR b)%R ->
  (forall i, 0 <= i < 2 -> get 0 (zs perm) i = f i) ->
  (forall ord, (forall i, 0 <= i < 2 -> ord i = f i) -> regular_order 2 (kkt_matrix (user_qp (tiny a b g h perm)) (fun _ => 1%R)) ord) ->
  (let sl := (IZR h - IZR g * x)%R in
   forall ord w, (forall i, 0 <= i < 2 -> ord i = f i) -> 
     w 0 = ((if Rlt_dec 0 sl then sl else 1) / (if Rlt_dec sl 0 then - sl else 1))%R -> regular_order 2 (kkt_matrix (user_qp (tiny a b g h perm)) w) ord) ->
  regular_session amd (tiny a b g h perm) [SetOptions RA one_iteration; Solve RA].
Proof.
  intros V Hd Hx Hf HR HW. apply first_regular; auto; [apply tiny_covered|apply tiny_sym|]. intros q E.
  assert (Ho : forall i, 0 <= i < 2 -> order_in q i = f i).
  { intros i Hi. rewrite (order_given amd _ _ q V eq_refl E i). auto. }
  split; [apply HR; auto|]. unfold regular_at. apply HW; auto.
  destruct (tiny_handle amd a b g h perm x q V Hd Hx E (HR _ Ho)) as [_ [S0 Z0]]. cbn [vars_of vs vz]. rewrite S0, Z0. reflexivity.
Qed.

(** x >= 1: the starting point is relaxed by 3/2.  x <= 1: it is strictly feasible.  0 x <= -1: nothing is feasible.
    Minimise x subject to x >= 1: a linear program. *)
Definition shifted : user R := tiny 1 0 (-1) (-1) [0; 1].
Definition inside : user R := tiny 1 0 1 1 [0; 1].
Definition void : user R := tiny 1 0 0 (-1) [0; 1].
Definition linear : user R := tiny 0 1 (-1) (-1) [1; 0].

Definition runs_regularly (amd : amd_t) (u : user R) : Prop :=
  valid_user amd u /\ covered u /\ symmetric (user_qp u) /\ quiet_calls RA u [SetOptions RA one_iteration; Solve RA] /\
  regular_session amd u [SetOptions RA one_iteration; Solve RA].

Lemma tiny_runs amd a b g h perm x f : permutation_array (zs perm) 2 -> (0 < IZR a + IZR g * IZR g)%R -> ((IZR a + IZR g * IZR g) * x = IZR g * IZR h - IZR b)%R ->
  (forall i, 0 <= i < 2 -> get 0 (zs perm) i = f i) ->
  (forall ord, (forall i, 0 <= i < 2 -> ord i = f i) -> regular_order 2 (kkt_matrix (user_qp (tiny a b g h perm)) (fun _ => 1%R)) ord) ->
  (let sl := (IZR h - IZR g * x)%R in
   forall ord w, (forall i, 0 <= i < 2 -> ord i = f i) -> 
     w 0 = ((if Rlt_dec 0 sl then sl else 1) / (if Rlt_dec sl 0 then - sl else 1))%R -> regular_order 2 (kkt_matrix (user_qp (tiny a b g h perm)) w) ord) ->
  runs_regularly amd (tiny a b g h perm).
Proof.
  intros Hp Hd Hx Hf HR HW. pose proof (tiny_valid a b g h perm amd Hp) as V. split; [exact V|].
  split; [apply tiny_covered|]. split; [apply tiny_sym|]. split; [apply quiet_small; reflexivity|]. apply (tiny_regular amd a b g h perm x f); auto.
Qed.

Ltac sl_case := cbv zeta; intros ord w Ho Hw;
  repeat match type of Hw with context[Rlt_dec ?x ?y] => destruct (Rlt_dec x y) as [?C|?C] end; try (exfalso; lra).

Lemma C75_case amd :
  (runs_regularly amd shifted /\ forall q, session RA amd shifted [] = Ok ([], q) -> relaxed_by (user_qp shifted) (vars_of q) (3 / 2)) /\
  (runs_regularly amd inside /\ forall codes q, session RA amd inside [] = Ok (codes, q) -> strictly_feasible (user_qp inside) (hx q)) /\
  (runs_regularly amd void /\ forall x, ~ strictly_feasible (user_qp void) x) /\
  (runs_regularly amd linear /\ no_quadratic (user_qp linear)).
Proof.
  assert (P01 : permutation_array (zs [0; 1]) 2) by perm_concrete. assert (P10 : permutation_array (zs [1; 0]) 2) by perm_concrete.
  assert (F01 : forall i, 0 <= i < 2 -> get 0 (zs [0; 1]) i = i) by (intros i Hi; enum i; reflexivity).
  assert (F10 : forall i, 0 <= i < 2 -> get 0 (zs [1; 0]) i = 1 - i) by (intros i Hi; enum i; reflexivity).
  assert (R1 : runs_regularly amd shifted).
  { apply (tiny_runs amd 1 0 (-1) (-1) [0; 1] (1 / 2)%R (fun i => i) P01 ltac:(lra) ltac:(lra) F01).
    - intros ord Ho. apply tiny_forward; auto; [lia|lra].
    - sl_case. assert (Ew : (w 0%Z = 2)%R) by (rewrite Hw; field; lra). apply tiny_forward; auto; [lia|]. rewrite Ew. lra. }
  assert (R2 : runs_regularly amd inside).
  { apply (tiny_runs amd 1 0 1 1 [0; 1] (1 / 2)%R (fun i => i) P01 ltac:(lra) ltac:(lra) F01).
    - intros ord Ho. apply tiny_forward; auto; [lia|lra].
    - sl_case. assert (Ew : (w 0%Z = 1 / 2)%R) by (rewrite Hw; field; lra). apply tiny_forward; auto; [lia|]. rewrite Ew. lra. }
  assert (R3 : runs_regularly amd void).
  { apply (tiny_runs amd 1 0 0 (-1) [0; 1] 0%R (fun i => i) P01 ltac:(lra) ltac:(lra) F01).
    - intros ord Ho. apply tiny_forward; auto; [lia|lra].
    - sl_case. assert (Ew : (w 0%Z = 1)%R) by (rewrite Hw; field; lra). apply tiny_forward; auto; [lia|]. rewrite Ew. lra. }
  assert (R4 : runs_regularly amd linear).
  { apply (tiny_runs amd 0 1 (-1) (-1) [1; 0] 0%R (fun i => 1 - i) P10 ltac:(lra) ltac:(lra) F10).
    - intros ord Ho. apply tiny_reverse; auto; lra.
    - sl_case. assert (Ew : (w 0%Z = 1)%R) by (rewrite Hw; field; lra). apply tiny_reverse; auto; rewrite Ew; lra. }
  split; [split; [exact R1|]|split; [split; [exact R2|]|split; [split; [exact R3|]|split; [exact R4|]]]].
  - intros q E. destruct R1 as [V [_ [_ [_ [HR _]]]]].
    destruct (tiny_handle amd 1 0 (-1) (-1) [0; 1] (1 / 2)%R q V ltac:(lra) ltac:(lra) E (HR _ _ E)) as [X0 [S0 _]].
    split; [intros k Hk; change (dp (user_qp shifted)) with 0 in Hk; lia|]. intros i Hi. change (dm (user_qp shifted)) with 1 in Hi. enum i.
    cbn [vars_of vs vx]. unfold shifted in *. rewrite S0. change (dn (user_qp (tiny 1 0 (-1) (-1) [0; 1]))) with 1. rewrite Sum1, tiny_G, tiny_h, X0.
    match goal with |- context[Rlt_dec ?x ?y] => destruct (Rlt_dec x y) as [C|C] end; lra.
  - intros codes q E. destruct R2 as [V [Hc [Hs [_ [HR _]]]]].
    destruct (C47_start_point amd _ V Hc Hs) as [q1 [E1 _]]. pose proof E as E2. rewrite E1 in E2. injection E2 as <- ->.
    destruct (tiny_handle amd 1 0 1 1 [0; 1] (1 / 2)%R q V ltac:(lra) ltac:(lra) E (HR _ _ E)) as [X0 _].
    split; [intros k Hk; change (dp (user_qp inside)) with 0 in Hk; lia|]. intros i Hi. change (dm (user_qp inside)) with 1 in Hi. enum i.
    unfold inside in *. change (dn (user_qp (tiny 1 0 1 1 [0; 1]))) with 1. rewrite Sum1, tiny_G, tiny_h, X0. lra.
  - intros x [_ F]. specialize (F 0 ltac:(cbn; lia)). unfold void in F. change (dn (user_qp (tiny 1 0 0 (-1) [0; 1]))) with 1 in F.
    rewrite Sum1, tiny_G, tiny_h in F. lra.
  - intros i j Hi Hj. change (dn (user_qp linear)) with 1 in *. enum i. enum j. apply tiny_P.
Qed.

Print Assumptions C75_start.
Print Assumptions C75_solve.
Print Assumptions C75_session.
Print Assumptions C75_iterates.
Print Assumptions C75_feasible.
Print Assumptions C75_full_step.
Print Assumptions C75_infeasible.
Print Assumptions C75_rate.
Print Assumptions C75_optimal.
Print Assumptions C75_dual_start.
Print Assumptions C75_dual_solve.
Print Assumptions C75_dual_session.
Print Assumptions C75_case.
