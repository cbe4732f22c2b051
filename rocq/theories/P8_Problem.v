(** What exit code 0 says about the problem, what the residuals and the starting point are, and that the answer
    depends only on the problem (C15, C16, C29, C30, C45-C48). *)
From Coq Require Import ZArith Reals List Lia Lra Bool.
From RecordUpdate Require Import RecordUpdate.
From Verif Require Import Res Arith Lists MSparse Csc SemVec TransposeProofs KktProofs MLdl LdlSpec LdlSym LdlNum LdlR LdlFun MSolver VecOps
  Iter SafeInst Setup Session Spec SpecLink QpSpec NewtonR Api Demo P2_Kkt PointR P5_Session P6_Codes StepSpec StepFacts LdlUniq StepLink
  P7_Step StepUniq QpFacts.
Import ListNotations.
Open Scope Z_scope.

Lemma quiet_prefix A u l l' : quiet_calls A u (l ++ l') -> quiet_calls A u l.
Proof. intros [H|H]; [left; auto|right]. intros o Ho. apply H. apply in_or_app. auto. Qed.

Lemma user_dims (u : user R) : dn (user_qp u) = u_n u /\ dm (user_qp u) = u_m u /\ dp (user_qp u) = u_pe u.
Proof. unfold user_qp, u_pe. destruct (u_eqs u) as [[[[ajc air] apr] bb]|]; auto. Qed.

Section Exit.
Variables (amd : amd_t) (u : user R) (o : settings R) (q : qp R).
Hypothesis V : valid_user amd u.
Hypothesis Hq : quiet_calls RA u [SetOptions RA o; Solve RA].
Hypothesis E : session RA amd u [SetOptions RA o; Solve RA] = Ok ([0], q).
Notation Q := (user_qp u).

Lemma exit_interior : interior_vars Q (vars_of q).
Proof.
  destruct (C12_always_interior amd u _ V Hq) as [codes [q' [E' H]]]. rewrite E in E'. injection E' as _ <-.
  intros i Hi. apply H. destruct (user_dims u) as [_ [Em _]]. rewrite Em in Hi. exact Hi.
Qed.

(** C15: exit code 0 of a convex problem bounds the distance to the optimal value. *)
Theorem C15_near_optimal x' : symmetric Q -> psd_on Q -> feasible Q x' ->
  (objective Q (hx q) - objective Q x' <
    reltol o / sqrt 3 * (Euclid (fun i => x' i - hx q i) (dn Q) + (if dp Q =? 0 then 0 else Euclid (hy q) (dp Q)) + Euclid (hz q) (dm Q)) +
    IZR (dm Q) * abstol o)%R.
Proof.
  intros HS HC HF. apply passes_near_optimal with (s := hs q); auto.
  - apply (dims_nonneg amd u V).
  - intros i Hi. destruct (exit_interior i Hi) as [_ H]. cbn [vars_of vz] in H. lra.
  - exact (C14_optimal_exact amd u o q V Hq E).
Qed.

(** C16: exit code 0 bounds the violation of every constraint. *)
Theorem C16_near_feasible :
  (forall i, (0 <= i < dm Q)%Z -> Sum (dn Q) (fun j => dG Q i j * hx q j) < dh Q i + reltol o / sqrt 3)%R /\
  (forall k, (0 <= k < dp Q)%Z -> Rabs (Sum (dn Q) (fun j => dA Q k j * hx q j) - db Q k) < reltol o / sqrt 3)%R.
Proof.
  apply (passes_feasible Q (reltol o) (abstol o) (hx q) (hy q) (hz q) (hs q)).
  - intros i Hi. destruct (exit_interior i Hi) as [H _]. cbn [vars_of vs] in H. lra.
  - exact (C14_optimal_exact amd u o q V Hq E).
Qed.

(** C45: an infeasible problem is not reported optimal, unless every certificate is weak. *)
Theorem C45_certificates y z : infeasibility_certificate Q y z ->
  (- certificate_value Q y z <= reltol o / sqrt 3 * (Euclid z (dm Q) + (if dp Q =? 0 then 0 else Euclid y (dp Q))))%R.
Proof.
  apply (passes_certificate Q (reltol o) (abstol o) (hx q) (hy q) (hz q) (hs q)).
  - intros i Hi. destruct (exit_interior i Hi) as [H _]. cbn [vars_of vs] in H. lra.
  - exact (C14_optimal_exact amd u o q V Hq E).
Qed.

(** C46: an unbounded problem is not reported optimal, unless the descent is slow. *)
Theorem C46_unbounded d : symmetric Q -> unbounded_direction Q d ->
  (- Sum (dn Q) (fun j => dc Q j * d j) <= reltol o / sqrt 3 * Euclid d (dn Q))%R.
Proof.
  intros HS. apply (passes_unbounded Q (reltol o) (abstol o) (hx q) (hy q) (hz q) (hs q)); auto.
  - intros i Hi. destruct (exit_interior i Hi) as [_ H]. cbn [vars_of vz] in H. lra.
  - exact (C14_optimal_exact amd u o q V Hq E).
Qed.
End Exit.
Print Assumptions C15_near_optimal.
Print Assumptions C16_near_feasible.
Print Assumptions C45_certificates.
Print Assumptions C46_unbounded.

(** C29: computeresiduals on the handle after any calls. *)
Theorem C29_residuals amd u l codes q : valid_user amd u -> quiet_calls RA u l -> session RA amd u l = Ok (codes, q) ->
  let Q := user_qp u in
  exists q', computeresiduals RA q = Ok q' /\
    (forall j, 0 <= j < dn Q -> rd (q_rx q') j = Ok (res_dual Q (hx q) (hy q) (hz q) j)) /\
    (forall k, 0 <= k < dp Q -> rd (q_ry q') k = Ok (res_eq Q (hx q) k)) /\
    (forall i, 0 <= i < dm Q -> rd (q_rz q') i = Ok (res_in Q (hx q) (hs q) i)) /\
    n_rx (q_stats q') = Some (Euclid (res_dual Q (hx q) (hy q) (hz q)) (dn Q)) /\
    (dp Q <> 0 -> n_ry (q_stats q') = Some (Euclid (res_eq Q (hx q)) (dp Q))) /\
    n_rz (q_stats q') = Some (Euclid (res_in Q (hx q) (hs q)) (dm Q)) /\
    n_mu (q_stats q') = Some (gap Q (hs q) (hz q)).
Proof.
  intros V Hq E Q. destruct (session_from RA Rpos Safe_R amd u V) as [q0 [B [r [E0 [HS HF]]]]].
  destruct (HF l Hq) as [q1 [E1 [HA Hi]]]. rewrite E in E1. injection E1 as _ <-.
  destruct (proj1 (wp_exists _ _) (computeresiduals_ok RA B Rpos q _ Safe_R (at_base _ _ _ _ HA) (at_pt _ _ _ _ HA)))
    as [q' [E' [rx [ry [rz [Eq [Hrx [_ [Hry Hrz]]]]]]]]].
  exists q'. split; [exact E'|]. pose proof (Pt_is _ _ _ (at_pt _ _ _ _ HA)) as PI. pose proof PI as [P1 P2 P3 P4].
  destruct (dims_user u B q0 r HS) as [D1 [D2 D3]]. pose proof (started_dims amd u B q0 r V HS) as HD.
  pose proof (started_qp u B q0 r HS) as EQ. fold Q in EQ, D1, D2, D3.
  set (pt := sn_pt RA (snd (callsF RA B (fresh RA B r) l))) in *. clearbody pt.
  split; [|split; [|split; [|split; [|split; [|split]]]]].
  - intros j Hj. rewrite Eq. rewrite D1 in Hj. transitivity (rd rx j); [reflexivity|].
    rewrite (is_vec_vec _ _ _ Hrx j Hj). f_equal. rewrite rxF_R by auto. rewrite EQ. symmetry.
    apply res_dual_ext; rewrite ?D1, ?D2, ?D3; assumption.
  - intros k Hk. rewrite Eq. rewrite D3 in Hk. transitivity (rd ry k); [reflexivity|].
    assert (Hp : pp B <> 0) by (cbn [car RA] in *; lia). rewrite (is_vec_vec _ _ _ (Hry Hp) k Hk). f_equal. rewrite ryF_R. rewrite EQ. symmetry.
    apply res_eq_ext; rewrite ?D1; assumption.
  - intros i Hii. rewrite Eq. rewrite D2 in Hii. transitivity (rd rz i); [reflexivity|].
    rewrite (is_vec_vec _ _ _ Hrz i Hii). f_equal. rewrite rzF_R. rewrite EQ. symmetry.
    apply res_in_ext; rewrite ?D1, ?D2; assumption.
  - rewrite Eq. transitivity (Some (nrm RA (rxF RA B pt) (pn B))); [reflexivity|]. f_equal. apply (nrx_handle amd u B q0 r V HS q pt PI).
  - intros Hp. rewrite Eq. transitivity (if pp B =? 0 then n_ry (q_stats q) else Some (nrm RA (ryF RA B pt) (pp B))); [reflexivity|].
    destruct (Z.eqb_spec (pp B) 0) as [C|C]; [rewrite D3 in Hp; contradiction|]. f_equal. apply (nry_handle u B q0 r HS q pt PI).
  - rewrite Eq. transitivity (Some (nrm RA (rzF RA B pt) (pm B))); [reflexivity|]. f_equal. apply (nrz_handle u B q0 r HS q pt PI).
  - rewrite Eq. transitivity (Some (nmuF RA B pt)); [reflexivity|]. f_equal. apply (nmu_handle amd u B q0 r V HS q pt PI).
Qed.
Print Assumptions C29_residuals.

(** ** The starting point *)

(** What setup leaves: the specified starting point, default options, no statistics. *)
Theorem C47_start_point amd u : valid_user amd u -> covered u -> symmetric (user_qp u) ->
  exists q, session RA amd u [] = Ok ([], q) /\ order_of (u_N u) (order_in q) /\
    q_options q = default_settings RA /\ (q_stats q) <| AMD_RESULT := 0 |> = initial_stats RA /\
    exists e, start_change (user_qp u) (order_in q) e /\ start_point (user_qp u) e (vars_of q).
Proof.
  intros V Hc Hsym. destruct (session_from RA Rpos Safe_R amd u V) as [q0 [B [r [E [HS HF]]]]].
  assert (Hq0 : quiet_calls RA u []) by (right; intros o []).
  destruct (HF [] Hq0) as [q [E2 [HA HI]]]. cbn [callsF fst snd] in *.
  exists q. split; [exact E2|].
  pose proof (started_qp u B q0 r HS) as EQ. pose proof (started_dims amd u B q0 r V HS) as HD.
  destruct (dims_user u B q0 r HS) as [D1 [D2 D3]]. destruct (sd_n _ _ _ _ _ HS) as [En [Em [Ep _]]].
  pose proof (sd_perm _ _ _ _ _ HS) as HPm. pose proof (started_rows RA amd u B q0 r V HS Hc) as HR. cbn [car RA] in *.
  assert (EN : u_N u = pN B) by (unfold u_N, pN; cbn [car RA] in *; lia).
  pose proof (order_at B q _ HA) as Hord. pose proof (at_base _ _ _ _ HA) as HB.
  split; [|split; [|split]].
  - rewrite EN. split.
    + intros i Hi. rewrite Hord by auto. apply (pf_range _ _ _ HPm); auto.
    + intros i j Hi Hj. rewrite !Hord by auto. intros C. apply (f_equal (pQf B)) in C. rewrite !(qf_pf _ _ _ HPm) in C by auto. exact C.
  - apply (at_o _ _ _ _ HA).
  - etransitivity; [apply (f_equal (fun st => st <| AMD_RESULT := 0 |>) (at_st _ _ _ _ HA))|]. reflexivity.
  - rewrite <- EQ in *. exists (pert0F B). split.
    + destruct (start_change0 B HD (b_forest _ _ _ HB) HPm Hsym HR) as [[S0 S1] S2]. split; [split; auto|].
      { eapply regularised_ext; [| | | |exact S1]; auto.
        - intros i Hi. symmetry. apply Hord. exact Hi.
        - intros i Hi. apply (pf_range _ _ _ HPm). exact Hi. }
      intros HRO. apply S2.
      eapply regular_order_ext; [| | |exact HRO].
      * intros i Hi. apply Hord. exact Hi.
      * intros i Hi. rewrite Hord by exact Hi. apply (pf_range _ _ _ HPm). exact Hi.
      * reflexivity.
    + pose proof (start_init B HD (b_forest _ _ _ HB) HPm Hsym HR) as HSt.
      pose proof (PointIs_vars u B q0 r q _ HS (Pt_is _ _ _ (at_pt _ _ _ _ HA))) as PV. rewrite <- EQ in PV. cbn [fresh sn_pt] in PV.
      apply (start_point_ext _ _ _ _ PV HSt).
Qed.
Print Assumptions C47_start_point.

(** C48: when setup regularises no pivot, x minimises objective plus half the squared slack subject to Ax = b;
    s and z are positive, s is the slack itself or at least 1. *)
Theorem C48_start_optimal amd u q : valid_user amd u -> covered u -> symmetric (user_qp u) -> psd_on (user_qp u) ->
  session RA amd u [] = Ok ([], q) ->
  let Q := user_qp u in
  regular_order (u_N u) (kkt_matrix Q (fun _ => 1%R)) (order_in q) ->
  (forall k, 0 <= k < dp Q -> res_eq Q (hx q) k = 0%R) /\
  (forall x', (forall k, 0 <= k < dp Q -> res_eq Q x' k = 0%R) -> (start_objective Q (hx q) <= start_objective Q x')%R) /\
  interior_vars Q (vars_of q) /\
  ((forall i, 0 <= i < dm Q -> hs q i = slack Q (hx q) i) \/ (forall i, 0 <= i < dm Q -> (1 <= hs q i)%R)).
Proof.
  intros V Hc Hs HC E Q HR. destruct (C47_start_point amd u V Hc Hs) as [q1 [E1 [_ [_ [_ [e [[_ He] HSt]]]]]]].
  rewrite E in E1. injection E1 as <-. destruct (dims_nonneg amd u V) as [Dn [Dm Dp]]. fold Q in Hs, HC, He, HSt, Dn, Dm, Dp.
  assert (He' : forall a, 0 <= a < dn Q + dp Q + dm Q -> e a = 0%R).
  { apply He. destruct (user_dims u) as [E1 [E2 E3]]. fold Q in E1, E2, E3. unfold u_N in HR. rewrite E1, E2, E3. exact HR. }
  destruct (start_optimal Q e (vars_of q) (hx q) Dn ltac:(lia) Dp Hs HC He' HSt) as [H1 _].
  split; [exact H1|]. split; [|split].
  - intros x' Hx'. apply (start_optimal Q e (vars_of q) x' Dn ltac:(lia) Dp Hs HC He' HSt). exact Hx'.
  - eapply start_interior; eauto.
  - apply (start_shift Q e (vars_of q) HSt).
Qed.
Print Assumptions C48_start_optimal.

(** ** Uniqueness *)

Lemma run_calls_app A l1 : forall q l2, run_calls A q (l1 ++ l2) =
  bind (run_calls A q l1) (fun x => bind (run_calls A (snd x) l2) (fun y => Ok (fst x ++ fst y, snd y))).
Proof.
  induction l1 as [|[o|] l1 IH]; intros q l2; cbn [app run_calls].
  - cbn [bind fst snd]. destruct (run_calls A q l2) as [[c q']| |]; reflexivity.
  - apply IH.
  - destruct (QP_SOLVE A q) as [[c q1]| |]; cbn [bind]; auto. rewrite IH.
    destruct (run_calls A q1 l1) as [[c2 q2]| |]; cbn [bind fst snd]; auto.
    destruct (run_calls A q2 l2) as [[c3 q3]| |]; cbn [bind fst snd]; auto.
Qed.

Lemma session_set A amd u l o codes q : session A amd u (l ++ [SetOptions A o]) = Ok (codes, q) ->
  exists q1, session A amd u l = Ok (codes, q1) /\ q = q1 <| q_options := o |>.
Proof.
  unfold session. destruct (setup A amd u) as [q0| |]; cbn [bind]; try discriminate. rewrite run_calls_app.
  destruct (run_calls A q0 l) as [[c1 q1]| |]; cbn [bind]; try discriminate. cbn [run_calls bind fst snd].
  rewrite app_nil_r. intros H. injection H as <- <-. exists q1. auto.
Qed.

(** What is known of the handle after any calls. *)
Lemma handle_after amd u l codes q : valid_user amd u -> quiet_calls RA u l -> session RA amd u l = Ok (codes, q) ->
  order_of (u_N u) (order_in q) /\ interior_vars (user_qp u) (vars_of q) /\
  forall codes0 q0, session RA amd u [] = Ok (codes0, q0) -> forall i, 0 <= i < u_N u -> order_in q i = order_in q0 i.
Proof.
  intros V Hq E. destruct (session_from RA Rpos Safe_R amd u V) as [q0 [B [r [E0 [HS HF]]]]].
  destruct (HF l Hq) as [q1 [E1 [HA [Is Iz]]]]. rewrite E in E1. injection E1 as _ <-.
  destruct (dims_user u B q0 r HS) as [D1 [D2 D3]]. destruct (sd_n _ _ _ _ _ HS) as [En [Em [Ep _]]].
  pose proof (sd_perm _ _ _ _ _ HS) as HPm. cbn [car RA] in *.
  assert (EN : u_N u = pN B) by (unfold u_N, pN; cbn [car RA] in *; lia).
  pose proof (order_at B q _ HA) as Hord.
  split; [|split].
  - rewrite EN. split.
    + intros i Hi. rewrite Hord by auto. apply (pf_range _ _ _ HPm); auto.
    + intros i j Hi Hj. rewrite !Hord by auto. intros C. apply (f_equal (pQf B)) in C. rewrite !(qf_pf _ _ _ HPm) in C by auto. exact C.
  - destruct (Pt_is _ _ _ (at_pt _ _ _ _ HA)) as [_ _ Hz Hs]. intros i Hi. cbn [vars_of vs vz]. rewrite D2 in Hi.
    rewrite Hz, Hs by auto. split; [apply (Is i Hi)|apply (Iz i Hi)].
  - intros codes0 q2 E2 i Hi. assert (Hq0 : quiet_calls RA u []) by (right; intros o []).
    destruct (HF [] Hq0) as [q3 [E3 [HA3 _]]]. rewrite E2 in E3. injection E3 as _ <-.
    rewrite EN in Hi. rewrite (Hord i Hi). symmetry. apply (order_at B q2 _ HA3 i Hi).
Qed.

(** No solve of the session, and not the setup, regularises a pivot. *)
Record regular_session (amd : amd_t) (u : user R) (l : list (call RA)) : Prop := mkRegular {
  rs_start : forall codes q, session RA amd u [] = Ok (codes, q) ->
    regular_order (u_N u) (kkt_matrix (user_qp u) (fun _ => 1%R)) (order_in q);
  rs_solves : forall l1 l2 q c q' k V sg ap ad, l = l1 ++ Solve RA :: l2 -> solved amd u l1 q c q' k V sg ap ad ->
    forall i, (i < k)%nat -> regular_at (user_qp u) (order_in q) (V i)
}.

Lemma regular_prefix amd u l l' : regular_session amd u (l ++ l') -> regular_session amd u l.
Proof.
  intros [H1 H2]. split; auto. intros l1 l2 q c q' k V sg ap ad E. eapply (H2 l1 (l2 ++ l')). rewrite E, <- app_assoc. reflexivity.
Qed.

Section Runs.
Variables Q Q' : QPdata.
Hypothesis HQ : same_qp Q Q'.
Hypothesis Dn : 0 <= dn Q.
Hypothesis Dm : 0 <= dm Q.
Hypothesis Dp : 0 <= dp Q.
Variables (ord ord' : Z -> Z) (sd rt at_ : R) (k k' : nat) (V V' : nat -> vars) (sg ap ad sg' ap' ad' : nat -> R).
Hypothesis HO : order_of (dn Q + dp Q + dm Q) ord.
Hypothesis R1 : method_run Q ord sd rt at_ k V sg ap ad.
Hypothesis R2 : method_run Q' ord' sd rt at_ k' V' sg' ap' ad'.
Hypothesis G1 : forall i, (i < k)%nat -> regular_at Q ord (V i).
Hypothesis G2 : forall i, (i < k')%nat -> regular_at Q' ord' (V' i).
Hypothesis I1 : forall i, (i <= k)%nat -> interior_vars Q (V i).
Hypothesis E0 : vars_eq Q (V O) (V' O).
Hypothesis S0 : sg O = sg' O.

Lemma runs_agree i : (i <= k)%nat -> (i <= k')%nat -> vars_eq Q (V i) (V' i) /\ sg i = sg' i /\
  forall j, (j < i)%nat -> ap j = ap' j /\ ad j = ad' j.
Proof.
  induction i as [|i IH]; intros Hk Hk'; [split; auto; split; auto; intros; lia|].
  destruct (IH ltac:(lia) ltac:(lia)) as [IV [IS IA]].
  destruct (R1 i ltac:(lia)) as [_ [e [[_ He] M1]]]. destruct (R2 i ltac:(lia)) as [_ [e' [[_ He'] M2]]].
  specialize (He (G1 i ltac:(lia))). specialize (He' (G2 i ltac:(lia))).
  pose proof (same_step Q' Q (same_sym _ _ HQ) _ _ _ _ _ _ _ _ M2) as M2'.
  assert (M2'' : method_step Q e' sd (sg i) (V i) (V' (S i)) (ap' i) (ad' i) (sg' (S i))).
  { eapply method_step_ext; [apply vars_eq_sym; exact IV|apply vars_eq_refl|]. rewrite IS. exact M2'. }
  assert (He2 : no_change Q e') by (intros a Ha; apply He'; destruct HQ as [En Em Ep _ _ _ _ _ _]; lia).
  destruct (method_step_unique Q Dn Dm Dp ord sd (sg i) (V i) e e' (V (S i)) (V' (S i)) (ap i) (ap' i) (ad i) (ad' i) (sg (S i)) (sg' (S i))
    HO (G1 i ltac:(lia)) (I1 i ltac:(lia)) He He2 M1 M2'') as [EV [EA [ED ES]]].
  split; auto. split; auto. intros j Hj. destruct (Nat.eq_dec j i) as [->|]; auto. apply IA. lia.
Qed.
End Runs.

(** Statistics apart from the ordering status and the internal resolve flag. *)
Definition same_stats (st st' : stats R) : Prop :=
  st <| AMD_RESULT := 0 |> <| resolve_kkt := None |> = st' <| AMD_RESULT := 0 |> <| resolve_kkt := None |>.

Lemma same_stats_intro (a b : stats R) : IterationCount a = IterationCount b -> n_rx a = n_rx b -> n_ry a = n_ry b -> n_rz a = n_rz b ->
  n_mu a = n_mu b -> alpha_p a = alpha_p b -> alpha_d a = alpha_d b -> fval a = fval b -> Flag a = Flag b -> same_stats a b.
Proof. destruct a, b. cbn. intros. subst. reflexivity. Qed.

Lemma same_stats_elim (a b : stats R) : same_stats a b -> IterationCount a = IterationCount b /\ n_rx a = n_rx b /\ n_ry a = n_ry b /\ n_rz a = n_rz b /\
  n_mu a = n_mu b /\ alpha_p a = alpha_p b /\ alpha_d a = alpha_d b /\ fval a = fval b /\ Flag a = Flag b.
Proof. destruct a, b. unfold same_stats. cbv [set eta_stats]. cbn. intros H. injection H as -> -> -> -> -> -> -> -> ->. repeat split. Qed.

(** Reports of equal points for the same problem are equal. *)
Lemma reports_same Q Q' a b v w : same_qp Q Q' -> vars_eq Q v w -> reports_point Q a v -> reports_point Q' b w ->
  fval a = fval b /\ n_rx a = n_rx b /\ n_rz a = n_rz b /\ n_mu a = n_mu b /\ (dp Q <> 0 -> n_ry a = n_ry b).
Proof.
  intros HQ [EX EY EZ ES] [A1 A2 A3 A4 A5] [B1 B2 B3 B4 B5].
  destruct (same_norms Q Q' HQ (vx w) (vy w) (vz w) (vs w)) as [N1 [N2 N3]].
  rewrite A1, A2, A4, A5, B1, B2, B4, B5, <- N1, <- N3, <- (same_objective Q Q' HQ), <- (same_gap Q Q' HQ).
  split; [f_equal; apply objective_ext; exact EX|]. split; [f_equal; apply Euclid_ext; intros; apply res_dual_ext; auto|].
  split; [f_equal; apply Euclid_ext; intros; apply res_in_ext; auto|]. split; [f_equal; apply gap_ext; auto|].
  intros Hp. rewrite A3, B3 by (auto; rewrite <- (sq_p _ _ HQ); auto). rewrite <- N2. f_equal. apply Euclid_ext. intros. apply res_eq_ext; auto.
Qed.

(** C30: the answer depends only on the problem and the calls, not on the elimination order, the ordering package
    or the way the matrices are stored. *)
Theorem C30_same_answer amd1 u1 amd2 u2 l codes1 q1 codes2 q2 :
  valid_user amd1 u1 -> valid_user amd2 u2 -> covered u1 -> covered u2 ->
  same_qp (user_qp u1) (user_qp u2) -> u_sigma_d u1 = u_sigma_d u2 -> symmetric (user_qp u1) ->
  quiet_calls RA u1 l -> quiet_calls RA u2 l -> regular_session amd1 u1 l -> regular_session amd2 u2 l ->
  session RA amd1 u1 l = Ok (codes1, q1) -> session RA amd2 u2 l = Ok (codes2, q2) ->
  codes1 = codes2 /\ vars_eq (user_qp u1) (vars_of q1) (vars_of q2) /\ q_options q1 = q_options q2 /\ same_stats (q_stats q1) (q_stats q2).
Proof.
  intros V1 V2 C1 C2 HQ Hsd Hs. assert (Hs2 : symmetric (user_qp u2)).
  { pose proof HQ as [En _ _ HP _ _ _ _ _]. intros i j Hi Hj. rewrite <- !HP by lia. apply Hs; lia. }
  destruct (dims_nonneg amd1 u1 V1) as [Dn [Dm Dp]].
  destruct (user_dims u1) as [En1 [Em1 Ep1]]. destruct (user_dims u2) as [En2 [Em2 Ep2]].
  assert (EN1 : u_N u1 = dn (user_qp u1) + dp (user_qp u1) + dm (user_qp u1)) by (unfold u_N; lia).
  assert (EN2 : u_N u2 = dn (user_qp u2) + dp (user_qp u2) + dm (user_qp u2)) by (unfold u_N; lia).
  assert (EN : u_N u1 = u_N u2) by (destruct HQ as [H1 H2 H3 _ _ _ _ _ _]; lia).
  revert codes1 q1 codes2 q2. induction l as [|[o|] l IH] using rev_ind; intros codes1 q1 codes2 q2 Q1 Q2 G1 G2 E1 E2.
  - destruct (C47_start_point amd1 u1 V1 C1 Hs) as [p1 [F1 [O1 [P1 [T1 [e1 [[_ N1] S1]]]]]]]. rewrite E1 in F1. injection F1 as -> <-.
    destruct (C47_start_point amd2 u2 V2 C2 Hs2) as [p2 [F2 [O2 [P2 [T2 [e2 [[_ N2] S2]]]]]]]. rewrite E2 in F2. injection F2 as -> <-.
    pose proof (rs_start _ _ _ G1 _ _ E1) as R1. pose proof (rs_start _ _ _ G2 _ _ E2) as R2.
    rewrite EN1 in R1, O1. rewrite EN2 in R2. specialize (N1 R1). specialize (N2 R2).
    split; auto. split; [|split].
    + eapply (start_unique (user_qp u1) Dn ltac:(lia) Dp (order_in q1) e1 e2); eauto.
      * intros a Ha. apply N2. lia.
      * apply (same_start _ _ (same_sym _ _ HQ)). exact S2.
    + congruence.
    + apply (f_equal (fun st => st <| resolve_kkt := None |>)) in T1, T2. etransitivity; [exact T1|symmetry; exact T2].
  - destruct (session_set RA amd1 u1 l o _ _ E1) as [p1 [F1 ->]]. destruct (session_set RA amd2 u2 l o _ _ E2) as [p2 [F2 ->]].
    destruct (IH _ _ _ _ (quiet_prefix _ _ _ _ Q1) (quiet_prefix _ _ _ _ Q2) (regular_prefix _ _ _ _ G1) (regular_prefix _ _ _ _ G2) F1 F2)
      as [H1 [H2 [H3 H4]]]. split; auto.
  - destruct (exact_trace amd1 u1 l V1 C1 Hs Q1) as [p1 [c1 [p1' [k1 [W1 [sg1 [ap1 [ad1 T1]]]]]]]].
    destruct (exact_trace amd2 u2 l V2 C2 Hs2 Q2) as [p2 [c2 [p2' [k2 [W2 [sg2 [ap2 [ad2 T2]]]]]]]].
    pose proof T1 as [cs1 [F1 [F1' M1]]]. pose proof T2 as [cs2 [F2 [F2' M2]]].
    rewrite E1 in F1'. injection F1' as -> <-. rewrite E2 in F2'. injection F2' as -> <-.
    destruct (IH _ _ _ _ (quiet_prefix _ _ _ _ Q1) (quiet_prefix _ _ _ _ Q2) (regular_prefix _ _ _ _ G1) (regular_prefix _ _ _ _ G2) F1 F2)
      as [H1 [H2 [H3 H4]]]. clear IH.
    destruct M1 as [A1 A2 A3 A4 A5 A6 A7 A8 A9 A10 A11 A12 A13 A14 A15 A16 A17 A18 A19].
    destruct M2 as [B1 B2 B3 B4 B5 B6 B7 B8 B9 B10 B11 B12 B13 B14 B15 B16 B17 B18 B19].
    destruct (handle_after amd1 u1 l _ _ V1 (quiet_prefix _ _ _ _ Q1) F1) as [O0 _].
    assert (O1 : order_of (dn (user_qp u1) + dp (user_qp u1) + dm (user_qp u1)) (order_in p1)) by (rewrite <- EN1; exact O0). clear O0.
    assert (RG1 : forall i, (i < k1)%nat -> regular_at (user_qp u1) (order_in p1) (W1 i)) by (intros i Hi; eapply (rs_solves _ _ _ G1 l []); eauto).
    assert (RG2 : forall i, (i < k2)%nat -> regular_at (user_qp u2) (order_in p2) (W2 i)) by (intros i Hi; eapply (rs_solves _ _ _ G2 l []); eauto).
    cbn [car RA] in *. change (@q_options R p1 = @q_options R p2) in H3. change (@u_sigma_d R u1 = @u_sigma_d R u2) in Hsd.
    rewrite <- H3, <- Hsd in B1. rewrite <- H3 in B5, B8, B9, B11, B13, B14, B15, B19.
    assert (E0 : vars_eq (user_qp u1) (W1 O) (W2 O)).
    { eapply vars_eq_trans; [exact A3|]. eapply vars_eq_trans; [exact H2|]. apply vars_eq_sym. apply (same_vars _ _ (same_sym _ _ HQ)). exact B3. }
    assert (AG := runs_agree (user_qp u1) (user_qp u2) HQ Dn ltac:(lia) Dp (order_in p1) (order_in p2) (u_sigma_d u1) _ _ k1 k2
      W1 W2 sg1 ap1 ad1 sg2 ap2 ad2 O1 A1 B1 RG1 RG2 A2 E0 ltac:(congruence)).
    assert (Ek : k1 = k2).
    { destruct (Nat.lt_trichotomy k1 k2) as [Hlt|[Hk|Hlt]]; auto; exfalso.
      - destruct (AG k1 ltac:(lia) ltac:(lia)) as [EV _]. destruct (B1 k1 Hlt) as [Hno _]. apply Hno.
        assert (Hp : passes_at (user_qp u1) (reltol (q_options p1)) (abstol (q_options p1)) (W2 k1)).
        { pose proof (A9 ltac:(lia)) as HP. unfold passes_here in HP. unfold passes_at.
          destruct (vars_eq_trans _ _ _ _ (vars_eq_sym _ _ _ EV) A4) as [X1 X2 X3 X4]. cbn [vars_of vx vy vz vs] in *.
          apply (passes_ext (user_qp u1) (vx (W2 k1)) (hx q1) (vy (W2 k1)) (hy q1) (vz (W2 k1)) (hz q1) (vs (W2 k1)) (hs q1)); auto. }
        apply (same_passes _ _ HQ). exact Hp.
      - destruct (AG k2 ltac:(lia) ltac:(lia)) as [EV _]. destruct (A1 k2 Hlt) as [Hno _]. apply Hno.
        assert (Hp : passes_at (user_qp u2) (reltol (q_options p1)) (abstol (q_options p1)) (W1 k2)).
        { pose proof (B9 ltac:(lia)) as HP. unfold passes_here in HP. unfold passes_at.
          destruct (vars_eq_trans _ _ _ _ (same_vars _ _ HQ _ _ EV) B4) as [X1 X2 X3 X4]. cbn [vars_of vx vy vz vs] in *.
          apply (passes_ext (user_qp u2) (vx (W1 k2)) (hx q2) (vy (W1 k2)) (hy q2) (vz (W1 k2)) (hz q2) (vs (W1 k2)) (hs q2)); auto. }
        apply (same_passes _ _ (same_sym _ _ HQ)). exact Hp. }
    subst k2. destruct (AG k1 ltac:(lia) ltac:(lia)) as [EV [ES EA]].
    change (@same_stats (@q_stats R p1) (@q_stats R p2)) in H4.
    destruct (same_stats_elim _ _ H4) as [L1 [L2 [L3 [L4 [L5 [L6 [L7 [L8 L9]]]]]]]].
    assert (Ec : c1 = c2) by (rewrite A11, B11, L1, L9; reflexivity).
    split; [congruence|]. split; [|split].
    + eapply vars_eq_trans; [apply vars_eq_sym; exact A4|]. eapply vars_eq_trans; [exact EV|]. apply (same_vars _ _ (same_sym _ _ HQ)). exact B4.
    + etransitivity; [exact A19|]. rewrite ES. symmetry. exact B19.
    + change (@same_stats (@q_stats R q1) (@q_stats R q2)).
      assert (REP : forall v w, vars_eq (user_qp u1) v w -> reports_point (user_qp u1) (q_stats q1) v -> reports_point (user_qp u2) (q_stats q2) w ->
         fval (q_stats q1) = fval (q_stats q2) /\ n_rx (q_stats q1) = n_rx (q_stats q2) /\ n_rz (q_stats q1) = n_rz (q_stats q2) /\
         n_mu (q_stats q1) = n_mu (q_stats q2) /\ n_ry (q_stats q1) = n_ry (q_stats q2)).
      { intros v w Hv Ra Rb. destruct (reports_same _ _ _ _ _ _ HQ Hv Ra Rb) as [K1 [K2 [K3 [K4 K5]]]].
        do 4 (split; auto). destruct (Z.eq_dec (dp (user_qp u1)) 0) as [Ez|Ez]; auto.
        rewrite A17, B17; auto. rewrite <- (sq_p _ _ HQ). exact Ez. }
      destruct (Z.lt_ge_cases (Z.of_nat k1) (maxit (q_options p1))) as [Hlt|Hge].
      * destruct (REP _ _ EV (A13 Hlt) (B13 Hlt)) as [K1 [K2 [K3 [K4 K5]]]].
        apply same_stats_intro; auto; try (rewrite A7, B7, L1; reflexivity); try congruence.
        -- destruct k1 as [|k1]; [rewrite (proj1 (A16 eq_refl)), (proj1 (B16 eq_refl)); auto|].
           rewrite (proj1 (A10 ltac:(lia))), (proj1 (B10 ltac:(lia))). apply EA. lia.
        -- destruct k1 as [|k1]; [rewrite (proj2 (A16 eq_refl)), (proj2 (B16 eq_refl)); auto|].
           rewrite (proj2 (A10 ltac:(lia))), (proj2 (B10 ltac:(lia))). apply EA. lia.
      * destruct k1 as [|k1].
        -- rewrite (A15 Hge eq_refl), (B15 Hge eq_refl), Ec. unfold same_stats in *.
           apply (f_equal (fun st => st <| Flag := c2 |>)) in H4. exact H4.
        -- destruct (AG k1 ltac:(lia) ltac:(lia)) as [EV' _].
           destruct (REP _ _ EV' (A14 Hge ltac:(lia)) (B14 Hge ltac:(lia))) as [K1 [K2 [K3 [K4 K5]]]].
           apply same_stats_intro; auto; try (rewrite A7, B7, L1; reflexivity); try congruence.
           ++ rewrite (proj1 (A10 ltac:(lia))), (proj1 (B10 ltac:(lia))). apply EA. lia.
           ++ rewrite (proj2 (A10 ltac:(lia))), (proj2 (B10 ltac:(lia))). apply EA. lia.
Qed.
Print Assumptions C30_same_answer.
