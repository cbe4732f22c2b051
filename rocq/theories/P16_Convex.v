(** C56: strongly convex problems.  Which pivots can be regularised, and what follows for setup and every solve. *)
From Coq Require Import ZArith Reals List Lia Lra Bool.
From RecordUpdate Require Import RecordUpdate.
From Verif Require Import Res Arith Lists MSparse Csc MSolver QpSpec Api Demo PointR P5_Session P6_Codes StepSpec StepFacts P2_Kkt SafeInst LdlR VecOps Spec Session
  P7_Step StepUniq QpFacts P8_Problem P8_Cases QuasiDef.
Import ListNotations.
Open Scope Z_scope.

(** The diagonal is changed in equality rows only, and there by nothing or by about -1e-7. *)
Definition only_equalities (Q : QPdata) (e : Z -> R) : Prop :=
  forall a, 0 <= a < dn Q + dp Q + dm Q -> (a < dn Q \/ dn Q + dp Q <= a -> e a = 0%R) /\ tiny_change (e a).

(** Slacks are not negligible compared with their multipliers. *)
Definition balanced (Q : QPdata) (v : vars) : Prop := forall i, 0 <= i < dm Q -> (1 / 100000000000000 * vz v i < vs v i)%R.

Lemma balanced_ratio Q v i : interior_vars Q v -> balanced Q v -> 0 <= i < dm Q -> (1 / 100000000000000 < vs v i / vz v i)%R.
Proof.
  intros HI HB Hi. destruct (HI i Hi) as [_ Hz]. specialize (HB i Hi). apply (Rmult_lt_reg_r (vz v i)); auto.
  replace (vs v i / vz v i * vz v i)%R with (vs v i) by (field; lra). exact HB.
Qed.

Section Convex.
Variables (amd : amd_t) (u : user R) (lam : R).
Notation Q := (user_qp u).
Hypothesis HV : valid_user amd u.
Hypothesis Hcov : covered u.
Hypothesis Hsym : symmetric Q.
Hypothesis Hlam : (1 / 100000000000000 < lam)%R.
Hypothesis Hconv : strongly_convex Q lam.

Lemma size_u : u_N u = dn Q + dp Q + dm Q.
Proof. destruct (user_dims u) as [-> [-> ->]]. unfold u_N. lia. Qed.

(** Setup: the starting point solves the documented system exactly, except perhaps in equality rows. *)
Theorem C56_start : exists q e, session RA amd u [] = Ok ([], q) /\ only_equalities Q e /\ start_point Q e (vars_of q).
Proof.
  destruct (C47_start_point amd u HV Hcov Hsym) as [q [E [HO [_ [_ [e [[[_ HR] _] HSt]]]]]]].
  exists q, e. split; auto. split; auto. destruct (dims_nonneg amd u HV) as [Dn [Dm Dp]]. intros a Ha. rewrite size_u in HO.
  apply (quasidefinite Q Dn ltac:(lia) Dp (fun _ => 1%R) lam (order_in q) e Hlam Hconv); auto. intros; lra.
Qed.

Theorem C56_start_regular codes q : dp Q = 0 -> session RA amd u [] = Ok (codes, q) ->
  regular_order (u_N u) (kkt_matrix Q (fun _ => 1%R)) (order_in q).
Proof.
  intros Hp E. destruct (C47_start_point amd u HV Hcov Hsym) as [q1 [E1 [HO [_ [_ [e [[[_ HR] _] _]]]]]]].
  rewrite E in E1. injection E1 as -> <-. destruct (dims_nonneg amd u HV) as [Dn [Dm Dp]]. rewrite size_u in *.
  apply (quasidefinite_regular Q Dn ltac:(lia) Dp (fun _ => 1%R) lam (order_in q) e Hlam Hconv); auto. intros; lra.
Qed.

Section Solves.
Variables (l : list (call RA)) (q : qp R) (c : Z) (q' : qp R) (k : nat) (V : nat -> vars) (sg ap ad : nat -> R).
Hypothesis Hq : quiet_calls RA u l.
Hypothesis HT : solved amd u l q c q' k V sg ap ad.

Lemma convex_change i e : (i < k)%nat -> balanced Q (V i) -> pivot_change Q (order_in q) (V i) e ->
  only_equalities Q e /\ (dp Q = 0 -> regular_at Q (order_in q) (V i)).
Proof.
  intros Hi HB [[_ HR] _]. destruct (solved_step amd u l q c q' k V sg ap ad HT i Hi) as [HI _].
  assert (HO : order_of (u_N u) (order_in q)).
  { destruct HT as [codes [E1 _]]. apply (handle_after amd u l codes q HV Hq E1). }
  destruct (dims_nonneg amd u HV) as [Dn [Dm Dp]]. rewrite size_u in HO. split.
  - intros a Ha. apply (quasidefinite Q Dn ltac:(lia) Dp (fun j => vs (V i) j / vz (V i) j)%R lam (order_in q) e Hlam Hconv); auto.
    intros j Hj. apply balanced_ratio with (Q := Q); auto.
  - intros Hp. apply (quasidefinite_regular Q Dn ltac:(lia) Dp (fun j => vs (V i) j / vz (V i) j)%R lam (order_in q) e Hlam Hconv); auto.
    intros j Hj. apply balanced_ratio with (Q := Q); auto.
Qed.

(** Every step from a balanced point is a step of the method whose linear systems are exact except perhaps in
    equality rows. *)
Theorem C56_step i : (i < k)%nat -> balanced Q (V i) ->
  exists e, only_equalities Q e /\ method_step Q e (u_sigma_d u) (sg i) (V i) (V (S i)) (ap i) (ad i) (sg (S i)).
Proof.
  intros Hi HB. pose proof HT as [codes [_ [_ M]]]. destruct (sm_run _ _ _ _ _ _ _ _ _ M i Hi) as [_ [e [He HM]]].
  exists e. split; auto. apply (convex_change i e Hi HB He).
Qed.

Theorem C56_step_regular i : (i < k)%nat -> balanced Q (V i) -> dp Q = 0 -> regular_at Q (order_in q) (V i).
Proof.
  intros Hi HB Hp. pose proof HT as [codes [_ [_ M]]]. destruct (sm_run _ _ _ _ _ _ _ _ _ M i Hi) as [_ [e [He _]]].
  apply (convex_change i e Hi HB He). exact Hp.
Qed.

(** Inequality residuals contract, and dual residuals obey their law, whatever happens in the equality rows. *)
Theorem C56_residuals i : (i < k)%nat -> balanced Q (V i) ->
  (forall j, 0 <= j < dm Q -> res_in Q (vx (V (S i))) (vs (V (S i))) j = ((1 - ap i) * res_in Q (vx (V i)) (vs (V i)) j)%R) /\
  (forall j, 0 <= j < dn Q -> res_dual Q (vx (V (S i))) (vy (V (S i))) (vz (V (S i))) j =
     ((1 - ad i) * res_dual Q (vx (V i)) (vy (V i)) (vz (V i)) j +
      (ad i - ap i) / ap i * Sum (dn Q) (fun t => dP Q j t * (vx (V (S i)) t - vx (V i) t)))%R).
Proof.
  intros Hi HB. destruct (solved_step amd u l q c q' k V sg ap ad HT i Hi) as [_ [e [d [rc [He [Hd [_ [_ [HM _]]]]]]]]].
  destruct (convex_change i e Hi HB He) as [HE _]. destruct (dims_nonneg amd u HV) as [Dn [Dm Dp]].
  destruct (C13_step_lengths amd u l q c q' k V sg ap ad HT i Hi) as [Ha _]. split; intros j Hj.
  - rewrite (moved_in Q e rc (V i) d (V (S i)) (ap i) (ad i) Hd HM j Hj). rewrite (proj1 (HE (dn Q + dp Q + j) ltac:(lia))) by lia. ring.
  - rewrite (moved_dual Q e rc (V i) d (V (S i)) (ap i) (ad i) Hd HM j Hj). rewrite (proj1 (HE j ltac:(lia))) by lia.
    rewrite (Sum_ext (dn Q) (fun t => dP Q j t * (vx (V (S i)) t - vx (V i) t))%R (fun t => ap i * (dP Q j t * vx d t))%R).
    + rewrite Sum_scal. field. lra.
    + intros t Ht. rewrite (mv_x _ _ _ _ _ _ HM) by auto. ring.
Qed.
End Solves.

(** Every point at which a step was made is balanced. *)
Definition balanced_session (l : list (call RA)) : Prop :=
  forall l1 l2 q c q' k V sg ap ad, l = l1 ++ Solve RA :: l2 -> solved amd u l1 q c q' k V sg ap ad ->
    forall i, (i < k)%nat -> balanced Q (V i).

(** Without equality constraints nothing is regularised, in whichever order the elimination goes. *)
Theorem C56_regular l : quiet_calls RA u l -> dp Q = 0 -> balanced_session l -> regular_session amd u l.
Proof.
  intros Hq Hp HB. split.
  - intros codes q E. apply (C56_start_regular codes q Hp E).
  - intros l1 l2 q c q' k V sg ap ad El HT i Hi.
    apply (C56_step_regular l1 q c q' k V sg ap ad); auto.
    + destruct Hq as [H|H]; [left; auto|right]. intros o Ho. apply H. rewrite El. apply in_or_app. auto.
    + eapply HB; eauto.
Qed.

(** The starting point of a strongly convex problem without equalities minimises the relaxed objective. *)
Theorem C56_start_optimal q : dp Q = 0 -> session RA amd u [] = Ok ([], q) ->
  forall x', (start_objective Q (hx q) <= start_objective Q x')%R.
Proof.
  intros Hp E x'. destruct (C48_start_optimal amd u q HV Hcov Hsym) as [_ [H _]]; auto.
  - intros v. eapply Rle_trans; [|apply Hconv]. apply Rmult_le_pos; [lra|]. apply Sum_nonneg. intros. apply Rle_0_sqr.
  - eapply C56_start_regular; eauto.
  - apply H. intros j Hj. lia.
Qed.
End Convex.
Print Assumptions C56_start.
Print Assumptions C56_step.
Print Assumptions C56_residuals.
Print Assumptions C56_regular.
Print Assumptions C56_start_optimal.

(** Same problem, any orders and storage: same answers. *)
Theorem C56_same_answer amd1 u1 amd2 u2 lam l codes1 q1 codes2 q2 :
  valid_user amd1 u1 -> valid_user amd2 u2 -> covered u1 -> covered u2 ->
  same_qp (user_qp u1) (user_qp u2) -> u_sigma_d u1 = u_sigma_d u2 -> symmetric (user_qp u1) -> dp (user_qp u1) = 0 ->
  (1 / 100000000000000 < lam)%R -> strongly_convex (user_qp u1) lam ->
  quiet_calls RA u1 l -> quiet_calls RA u2 l -> balanced_session amd1 u1 l -> balanced_session amd2 u2 l ->
  session RA amd1 u1 l = Ok (codes1, q1) -> session RA amd2 u2 l = Ok (codes2, q2) ->
  codes1 = codes2 /\ vars_eq (user_qp u1) (vars_of q1) (vars_of q2) /\ same_stats (q_stats q1) (q_stats q2).
Proof.
  intros V1 V2 C1 C2 HQ Hsd Hs Hp Hlam HC Q1 Q2 B1 B2 E1 E2. pose proof HQ as [En Em Ep HP _ _ _ _ _].
  assert (Hs2 : symmetric (user_qp u2)) by (intros i j Hi Hj; rewrite <- !HP by lia; apply Hs; lia).
  assert (HC2 : strongly_convex (user_qp u2) lam).
  { intros v. specialize (HC v). rewrite <- En. rewrite (Sum_ext (dn (user_qp u1)) (fun i => v i * Sum (dn (user_qp u1)) (fun j => dP (user_qp u2) i j * v j))%R
      (fun i => v i * Sum (dn (user_qp u1)) (fun j => dP (user_qp u1) i j * v j))%R); auto.
    intros i Hi. f_equal. apply Sum_ext. intros j Hj. rewrite HP by auto. reflexivity. }
  destruct (C30_same_answer amd1 u1 amd2 u2 l codes1 q1 codes2 q2) as [H1 [H2 [_ H3]]]; auto.
  - apply (C56_regular amd1 u1 lam); auto.
  - apply (C56_regular amd2 u2 lam); auto. lia.
Qed.
Print Assumptions C56_same_answer.

(** For a convex problem that is not strongly convex, a zero pivot of a variable gets the wrong sign: minimise x
    subject to x >= 1. *)
Definition lp : user R :=
  mkUser 1 1 0 (zs [0; 1]) (zs [0]) (fs RA [0]) None None None (zs [0; 1]) (zs [0]) (fs RA [-1]) (fs RA [1]) (fs RA [-1]) None 0%R
    (Some (zs [0; 1])).
Lemma lp_P : dP (user_qp lp) 0 0 = 0%R. Proof. cbv - [Rplus IZR]. lra. Qed.

Theorem C56_convex_refuted amd : valid_user amd lp /\ covered lp /\ symmetric (user_qp lp) /\ psd_on (user_qp lp) /\ dp (user_qp lp) = 0 /\
  exists q e, session RA amd lp [] = Ok ([], q) /\ start_point (user_qp lp) e (vars_of q) /\ e 0 = (- (1 / 10000000))%R /\
    forall e', start_change (user_qp lp) (order_in q) e' -> e' 0 = (- (1 / 10000000))%R.
Proof.
  assert (V : valid_user amd lp).
  { constructor; cbn [lp u_n u_m u_p u_Pjc u_Pir u_Ppr u_Gjc u_Gir u_Gpr u_c u_h u_perm].
    - lia.
    - lia.
    - csc_concrete.
    - csc_concrete.
    - intros ajc air apr bb E. discriminate E.
    - intros i Hi. enum i; eexists; reflexivity.
    - intros i Hi. enum i; eexists; reflexivity.
    - exists 0, 0, (fofZ RA 0). split; [lia|]. left. exists 0, 1, 0. cbn. repeat split; auto; lia.
    - change (u_N lp) with 2. perm_concrete. }
  assert (C : covered lp) by exact (small_covered RA).
  assert (HS : symmetric (user_qp lp)).
  { intros i j Hi Hj. change (dn (user_qp lp)) with 1 in *. enum i. enum j. reflexivity. }
  split; auto. split; auto. split; auto. split.
  { intros v. change (dn (user_qp lp)) with 1. rewrite !Sum1, lp_P. lra. }
  split; [reflexivity|]. destruct (C47_start_point amd lp V C HS) as [q [E [HO [_ [_ [e [HE HSt]]]]]]].
  assert (Ho : order_in q 0 = 0) by (rewrite (order_given amd lp (zs [0; 1]) q V eq_refl E); reflexivity).
  assert (G : forall e', start_change (user_qp lp) (order_in q) e' -> e' 0 = (- (1 / 10000000))%R).
  { intros e' [[_ [L [D [U1 [U2 [U3 U4]]]]]] _]. change (dn (user_qp lp) + dp (user_qp lp) + dm (user_qp lp)) with 2 in *.
    specialize (U3 0 0 ltac:(lia) ltac:(lia)). rewrite Sum2, U1, (U2 0 1) in U3 by lia. rewrite Ho in U3. cbn [Z.eqb] in U3.
    change (kkt_matrix (user_qp lp) (fun _ => 1%R) 0 0) with (dP (user_qp lp) 0 0) in U3. rewrite lp_P in U3.
    destruct (U4 0 ltac:(lia)) as [_ W]. rewrite Ho in W. cbv zeta in W.
    assert (Ed : (D 0%Z - e' 0%Z = 0)%R) by lra. rewrite Ed, Rabs_R0 in W. specialize (W ltac:(lra)).
    destruct (Rle_dec 0 0); lra. }
  exists q, e. split; auto.
Qed.
Print Assumptions C56_convex_refuted.

(** A case: minimise x^2/2 subject to x >= 1, one iteration. *)
Lemma small_convex : strongly_convex Qs 1.
Proof. intros v. change (dn Qs) with 1. rewrite !Sum1, Qs_P. lra. Qed.

Theorem C56_case amd : valid_user amd natural /\ covered natural /\ symmetric (user_qp natural) /\ dp (user_qp natural) = 0 /\
  strongly_convex (user_qp natural) 1 /\ quiet_calls RA natural [SetOptions RA one_iteration; Solve RA] /\
  balanced_session amd natural [SetOptions RA one_iteration; Solve RA] /\
  exists q c q' V sg ap ad, solved amd natural [SetOptions RA one_iteration] q c q' 1%nat V sg ap ad.
Proof.
  assert (V : valid_user amd natural) by apply natural_valid. assert (C : covered natural) by exact (small_covered RA).
  assert (Hq0 : quiet_calls RA natural [SetOptions RA one_iteration; Solve RA]) by (apply quiet_small; reflexivity).
  split; auto. split; auto. split; [apply Qs_sym|]. split; [reflexivity|]. split; [apply small_convex|]. split; auto. split.
  - destruct (C47_start_point amd natural V C Qs_sym) as [q0 [E0 _]].
    destruct (start_values amd natural (zs [0; 1]) (fun i => i) q0 V C eq_refl eq_refl eq_refl) as [_ [_ [S2 S3]]]; auto.
    { intros i Hi. enum i; reflexivity. }
    { apply forward_regular; auto. lra. }
    intros l1 l2 q c q' k V0 sg ap ad E HT i Hi. apply only_solve in E. subst l1. destruct HT as [cs [F1 [F2 M]]].
    destruct (session_set RA amd natural [] one_iteration cs q F1) as [q1 [G1 Eq]]. rewrite E0 in G1. injection G1 as <- <-.
    pose proof (sm_limit _ _ _ _ _ _ _ _ _ M) as HL.
    assert (Eo : @q_options R q = one_iteration) by (rewrite Eq; reflexivity). rewrite Eo in HL. cbn in HL.
    assert (i = O) by lia. subst i. destruct (sm_from _ _ _ _ _ _ _ _ _ M) as [_ _ Z0 Z1].
    intros j Hj. change (dm Qs) with 1 in Hj. enum j. rewrite (Z0 0), (Z1 0) by (cbn; lia). cbn [vars_of vs vz].
    assert (Hh : hs q 0 = hs q0 0 /\ hz q 0 = hz q0 0) by (rewrite Eq; split; reflexivity). destruct Hh as [-> ->]. rewrite S2, S3. lra.
  - destruct (steps_case amd) as [q [c [q' [V0 [sg [ap [ad [_ [_ [_ [H _]]]]]]]]]]]. exists q, c, q', V0, sg, ap, ad. exact H.
Qed.
