(** C63: turning and shifting the coordinates of the problem turns and shifts the answer. *)
From Coq Require Import ZArith Reals List Lia Lra Bool.
From RecordUpdate Require Import RecordUpdate.
From Verif Require Import Res Arith Lists MSparse Csc MSolver QpSpec Api Demo PointR P5_Session P6_Codes StepSpec StepFacts P2_Kkt SafeInst LdlR VecOps Spec Session
  P7_Step StepUniq QpFacts P8_Problem P8_Cases QuasiDef P16_Convex Relabel P17_Relabel Motion.
Import ListNotations.
Open Scope Z_scope.

(** The statistics agree, except that the objective values differ by [k]. *)
Record moved_stats (k : R) (a b : stats R) : Prop := mkMovedStats {
  ms_iter : IterationCount a = IterationCount b; ms_flag : Flag a = Flag b;
  ms_rx : n_rx a = n_rx b; ms_ry : n_ry a = n_ry b; ms_rz : n_rz a = n_rz b; ms_mu : n_mu a = n_mu b;
  ms_ap : alpha_p a = alpha_p b; ms_ad : alpha_d a = alpha_d b;
  ms_fval : option_map (fun f => (f - k)%R) (fval a) = fval b
}.

Section Runs.
Variables (T : Z -> Z -> R) (x0 : Z -> R) (U : Z -> Z -> R) (h : Z -> Z) (Q Q' : QPdata).
Hypothesis HQ : moved T x0 U h Q Q'.
Hypothesis Dn : 0 <= dn Q.
Hypothesis Dm : 0 <= dm Q.
Hypothesis Dp : 0 <= dp Q.
Variables (ord ord' : Z -> Z) (sd rt at_ : R) (k k' : nat) (V V' : nat -> vars) (sg ap ad sg' ap' ad' : nat -> R).
Hypothesis HO : order_of (dn Q' + dp Q' + dm Q') ord'.
Hypothesis R1 : method_run Q ord sd rt at_ k V sg ap ad.
Hypothesis R2 : method_run Q' ord' sd rt at_ k' V' sg' ap' ad'.
Hypothesis G1 : forall i, (i < k)%nat -> regular_at Q ord (V i).
Hypothesis G2 : forall i, (i < k')%nat -> regular_at Q' ord' (V' i).
Hypothesis I2 : forall i, (i <= k')%nat -> interior_vars Q' (V' i).
Hypothesis E0 : vars_eq Q' (moved_point T x0 U h (dn Q) (dp Q) (V O)) (V' O).
Hypothesis S0 : sg O = sg' O.

Lemma runs_moved i : (i <= k)%nat -> (i <= k')%nat -> vars_eq Q' (moved_point T x0 U h (dn Q) (dp Q) (V i)) (V' i) /\ sg i = sg' i /\
  forall j, (j < i)%nat -> ap j = ap' j /\ ad j = ad' j.
Proof.
  induction i as [|i IH]; intros Hk Hk'; [split; auto; split; auto; intros; lia|].
  destruct (IH ltac:(lia) ltac:(lia)) as [IV [IS IA]].
  destruct (R1 i ltac:(lia)) as [_ [e [[_ He] M1]]]. destruct (R2 i ltac:(lia)) as [_ [e' [[_ He'] M2]]].
  specialize (He (G1 i ltac:(lia))). specialize (He' (G2 i ltac:(lia))).
  pose proof (mv_step T x0 U h Q Q' HQ Dn Dm Dp e _ _ _ _ _ _ _ He M1) as M1'.
  assert (M1'' : method_step Q' (fun _ => 0%R) sd (sg' i) (V' i) (moved_point T x0 U h (dn Q) (dp Q) (V (S i))) (ap i) (ad i) (sg (S i))).
  { eapply method_step_ext; [exact IV|apply vars_eq_refl|]. rewrite <- IS. exact M1'. }
  assert (He1 : no_change Q' (fun _ => 0%R)) by (intros a Ha; reflexivity).
  assert (Dn' : 0 <= dn Q') by (rewrite (md_n _ _ _ _ _ _ HQ); auto). assert (Dm' : 0 <= dm Q') by (rewrite (md_m _ _ _ _ _ _ HQ); auto).
  assert (Dp' : 0 <= dp Q') by (rewrite (md_p _ _ _ _ _ _ HQ); auto).
  destruct (method_step_unique Q' Dn' Dm' Dp' ord' sd (sg' i) (V' i) _ e' _ (V' (S i)) (ap i) (ap' i) (ad i) (ad' i) (sg (S i)) (sg' (S i))
    HO (G2 i ltac:(lia)) (I2 i ltac:(lia)) He1 He' M1'' M2) as [EV [EA [ED ES]]].
  split; auto. split; auto. intros j Hj. destruct (Nat.eq_dec j i) as [->|]; auto. apply IA. lia.
Qed.
End Runs.

(** Reports of the same point in both sets of variables are equal. *)
Lemma reports_moved T x0 U h Q Q' a b v w : moved T x0 U h Q Q' -> symmetric Q -> vars_eq Q' (moved_point T x0 U h (dn Q) (dp Q) v) w -> reports_point Q a v -> reports_point Q' b w ->
  option_map (fun f => (f - objective Q x0)%R) (fval a) = fval b /\ n_rx a = n_rx b /\ n_rz a = n_rz b /\ n_mu a = n_mu b /\ (dp Q <> 0 -> n_ry a = n_ry b).
Proof.
  intros HQ HS [EX EY EZ ES] [A1 A2 A3 A4 A5] [B1 B2 B3 B4 B5].
  destruct (mv_norms T x0 U h Q Q' HQ v) as [N1 [N2 N3]].
  rewrite A1, A2, A4, A5, B1, B2, B4, B5, <- N1, <- N3, <- (mv_gap T x0 U h Q Q' HQ).
  split; [cbn [option_map]; f_equal; rewrite <- (mv_objective T x0 U h Q Q' HQ v HS); apply objective_ext; exact EX|]. split; [f_equal; apply Euclid_ext; intros; apply res_dual_ext; auto|].
  split; [f_equal; apply Euclid_ext; intros; apply res_in_ext; auto|]. split; [f_equal; apply gap_ext; auto|].
  intros Hp. rewrite A3, B3 by (auto; rewrite (md_p _ _ _ _ _ _ HQ); auto). rewrite <- N2. f_equal. apply Euclid_ext. intros. apply res_eq_ext; auto.
Qed.

Lemma moved_zero k (a b : stats R) : a <| AMD_RESULT := 0 |> = b <| AMD_RESULT := 0 |> -> fval a = None -> moved_stats k a b.
Proof.
  intros E F. destruct a, b. cbv [set eta_stats] in E. cbn in E. injection E. intros. cbn in F. subst. split; reflexivity.
Qed.

(** C63: two callers who state the same problem in coordinates that differ by a rotation and a shift, with the equalities
    rotated and the inequalities renamed, get the same codes, iterates and statistics up to that change of coordinates.
    The objective values differ by the value at the new origin. *)
Theorem C63_moved T x0 U h amd1 u1 amd2 u2 l codes1 q1 codes2 q2 :
  valid_user amd1 u1 -> valid_user amd2 u2 -> covered u1 -> covered u2 ->
  moved T x0 U h (user_qp u1) (user_qp u2) -> u_sigma_d u1 = u_sigma_d u2 -> symmetric (user_qp u1) ->
  quiet_calls RA u1 l -> quiet_calls RA u2 l -> regular_session amd1 u1 l -> regular_session amd2 u2 l ->
  session RA amd1 u1 l = Ok (codes1, q1) -> session RA amd2 u2 l = Ok (codes2, q2) ->
  codes1 = codes2 /\ vars_eq (user_qp u2) (moved_point T x0 U h (dn (user_qp u1)) (dp (user_qp u1)) (vars_of q1)) (vars_of q2) /\ q_options q1 = q_options q2 /\
  moved_stats (objective (user_qp u1) x0) (q_stats q1) (q_stats q2).
Proof.
  intros V1 V2 C1 C2 HQ Hsd Hs. pose proof (mv_symmetric T x0 U h _ _ HQ Hs) as Hs2.
  destruct (dims_nonneg amd1 u1 V1) as [Dn [Dm Dp]]. destruct (dims_nonneg amd2 u2 V2) as [Dn2 [Dm2 Dp2]].
  destruct (user_dims u1) as [En1 [Em1 Ep1]]. destruct (user_dims u2) as [En2 [Em2 Ep2]].
  assert (EN1 : u_N u1 = dn (user_qp u1) + dp (user_qp u1) + dm (user_qp u1)) by (unfold u_N; lia).
  assert (EN2 : u_N u2 = dn (user_qp u2) + dp (user_qp u2) + dm (user_qp u2)) by (unfold u_N; lia).
  assert (Dm' : 0 <= dm (user_qp u1)) by lia. assert (Dm2' : 0 <= dm (user_qp u2)) by lia.
  revert codes1 q1 codes2 q2. induction l as [|[o|] l IH] using rev_ind; intros codes1 q1 codes2 q2 Q1 Q2 G1 G2 E1 E2.
  - destruct (C47_start_point amd1 u1 V1 C1 Hs) as [p1 [F1 [O1 [P1 [T1 [e1 [[_ N1] S1]]]]]]]. rewrite E1 in F1. injection F1 as -> <-.
    destruct (C47_start_point amd2 u2 V2 C2 Hs2) as [p2 [F2 [O2 [P2 [T2 [e2 [[_ N2] S2]]]]]]]. rewrite E2 in F2. injection F2 as -> <-.
    pose proof (rs_start _ _ _ G1 _ _ E1) as R1. pose proof (rs_start _ _ _ G2 _ _ E2) as R2.
    rewrite EN1 in R1. rewrite EN2 in R2, O2. specialize (N1 R1). specialize (N2 R2).
    split; auto. split; [|split].
    + eapply (start_unique (user_qp u2) Dn2 Dm2' Dp2 (order_in q2) (fun _ => 0%R) e2); eauto.
      * intros a Ha. reflexivity.
      * apply (mv_start T x0 U h _ _ HQ Dn Dm' Dp e1 _ N1 S1).
    + congruence.
    + assert (ET : (q_stats q1) <| AMD_RESULT := 0 |> = (q_stats q2) <| AMD_RESULT := 0 |>) by (etransitivity; [exact T1|symmetry; exact T2]).
      pose proof (f_equal fval T1) as F1. apply moved_zero; [exact ET|exact F1].
  - destruct (session_set RA amd1 u1 l o _ _ E1) as [p1 [F1 ->]]. destruct (session_set RA amd2 u2 l o _ _ E2) as [p2 [F2 ->]].
    destruct (IH _ _ _ _ (quiet_prefix _ _ _ _ Q1) (quiet_prefix _ _ _ _ Q2) (regular_prefix _ _ _ _ G1) (regular_prefix _ _ _ _ G2) F1 F2)
      as [H1 [H2 [H3 H4]]]. split; auto.
  - destruct (exact_trace amd1 u1 l V1 C1 Hs Q1) as [p1 [c1 [p1' [k1 [W1 [sg1 [ap1 [ad1 T1]]]]]]]].
    destruct (exact_trace amd2 u2 l V2 C2 Hs2 Q2) as [p2 [c2 [p2' [k2 [W2 [sg2 [ap2 [ad2 T2]]]]]]]].
    pose proof T1 as [cs1 [F1 [F1' M1]]]. pose proof T2 as [cs2 [F2 [F2' M2]]].
    rewrite E1 in F1'. injection F1' as -> <-. rewrite E2 in F2'. injection F2' as -> <-.
    destruct (IH _ _ _ _ (quiet_prefix _ _ _ _ Q1) (quiet_prefix _ _ _ _ Q2) (regular_prefix _ _ _ _ G1) (regular_prefix _ _ _ _ G2) F1 F2)
      as [H1 [H2 [H3 H4]]]. clear IH.
    destruct M1 as [A1 A2 A3 A4 A5 A6 A7 A8 A9 A10 A11 A12 A13 A14 A15 A16 A17 A18 A19].
    destruct M2 as [B1 B2 B3 B4 B5 B6 B7 B8 B9 B10 B11 B12 B13 B14 B15 B16 B17 B18 B19].
    destruct (handle_after amd2 u2 l _ _ V2 (quiet_prefix _ _ _ _ Q2) F2) as [O0 _].
    assert (O2 : order_of (dn (user_qp u2) + dp (user_qp u2) + dm (user_qp u2)) (order_in p2)) by (rewrite <- EN2; exact O0). clear O0.
    assert (RG1 : forall i, (i < k1)%nat -> regular_at (user_qp u1) (order_in p1) (W1 i)) by (intros i Hi; eapply (rs_solves _ _ _ G1 l []); eauto).
    assert (RG2 : forall i, (i < k2)%nat -> regular_at (user_qp u2) (order_in p2) (W2 i)) by (intros i Hi; eapply (rs_solves _ _ _ G2 l []); eauto).
    cbn [car RA] in *. change (@q_options R p1 = @q_options R p2) in H3. change (@u_sigma_d R u1 = @u_sigma_d R u2) in Hsd.
    rewrite <- H3, <- Hsd in B1. rewrite <- H3 in B5, B8, B9, B11, B13, B14, B15, B19.
    assert (E0 : vars_eq (user_qp u2) (moved_point T x0 U h (dn (user_qp u1)) (dp (user_qp u1)) (W1 O)) (W2 O)).
    { eapply vars_eq_trans; [exact (mv_vars T x0 U h _ _ HQ _ _ A3)|]. eapply vars_eq_trans; [exact H2|]. apply vars_eq_sym. exact B3. }
    assert (AG := runs_moved T x0 U h (user_qp u1) (user_qp u2) HQ Dn Dm' Dp (order_in p1) (order_in p2) (u_sigma_d u1) _ _ k1 k2
      W1 W2 sg1 ap1 ad1 sg2 ap2 ad2 O2 A1 B1 RG1 RG2 B2 E0 ltac:(congruence)).
    assert (Ek : k1 = k2).
    { destruct (Nat.lt_trichotomy k1 k2) as [Hlt|[Hk|Hlt]]; auto; exfalso.
      - destruct (AG k1 ltac:(lia) ltac:(lia)) as [EV _]. destruct (B1 k1 Hlt) as [Hno _]. apply Hno.
        assert (Hp : passes_at (user_qp u2) (reltol (q_options p1)) (abstol (q_options p1)) (moved_point T x0 U h (dn (user_qp u1)) (dp (user_qp u1)) (vars_of q1))).
        { apply (mv_passes T x0 U h _ _ HQ). exact (A9 ltac:(lia)). }
        unfold passes_at in *.
        destruct (vars_eq_trans _ _ _ _ (vars_eq_sym _ _ _ EV) (mv_vars T x0 U h _ _ HQ _ _ A4)) as [X1 X2 X3 X4].
        exact (proj2 (passes_ext (user_qp u2) _ _ _ _ _ _ _ _ X1 X2 X3 X4 _ _) Hp).
      - destruct (AG k2 ltac:(lia) ltac:(lia)) as [EV _]. destruct (A1 k2 Hlt) as [Hno _]. apply Hno.
        apply (mv_passes T x0 U h _ _ HQ). pose proof (B9 ltac:(lia)) as Hp. unfold passes_here in Hp. unfold passes_at.
        destruct (vars_eq_trans _ _ _ _ EV B4) as [X1 X2 X3 X4].
        exact (proj2 (passes_ext (user_qp u2) _ _ _ _ _ _ _ _ X1 X2 X3 X4 _ _) Hp). }
    subst k2. destruct (AG k1 ltac:(lia) ltac:(lia)) as [EV [ES EA]].
    change (@moved_stats (objective (user_qp u1) x0) (@q_stats R p1) (@q_stats R p2)) in H4.
    pose proof H4 as [L1 L9 L2 L3 L4 L5 L6 L7 L8].
    assert (Ec : c1 = c2) by (rewrite A11, B11, L1, L9; reflexivity).
    split; [congruence|]. split; [|split].
    + eapply vars_eq_trans; [apply vars_eq_sym; exact (mv_vars T x0 U h _ _ HQ _ _ A4)|]. eapply vars_eq_trans; [exact EV|]. exact B4.
    + etransitivity; [exact A19|]. rewrite ES. symmetry. exact B19.
    + change (@moved_stats (objective (user_qp u1) x0) (@q_stats R q1) (@q_stats R q2)).
      assert (REP : forall v w, vars_eq (user_qp u2) (moved_point T x0 U h (dn (user_qp u1)) (dp (user_qp u1)) v) w -> reports_point (user_qp u1) (q_stats q1) v -> reports_point (user_qp u2) (q_stats q2) w ->
         option_map (fun f => (f - objective (user_qp u1) x0)%R) (fval (q_stats q1)) = fval (q_stats q2) /\ n_rx (q_stats q1) = n_rx (q_stats q2) /\ n_rz (q_stats q1) = n_rz (q_stats q2) /\
         n_mu (q_stats q1) = n_mu (q_stats q2) /\ n_ry (q_stats q1) = n_ry (q_stats q2)).
      { intros v w Hv Ra Rb. destruct (reports_moved T x0 U h _ _ _ _ _ _ HQ Hs Hv Ra Rb) as [K1 [K2 [K3 [K4 K5]]]].
        do 4 (split; auto). destruct (Z.eq_dec (dp (user_qp u1)) 0) as [Ez|Ez]; auto.
        rewrite A17, B17; auto. rewrite (md_p _ _ _ _ _ _ HQ). exact Ez. }
      destruct (Z.lt_ge_cases (Z.of_nat k1) (maxit (q_options p1))) as [Hlt|Hge].
      * destruct (REP _ _ EV (A13 Hlt) (B13 Hlt)) as [K1 [K2 [K3 [K4 K5]]]].
        constructor; auto; try (rewrite A7, B7, L1; reflexivity); try congruence.
        -- destruct k1 as [|k1]; [rewrite (proj1 (A16 eq_refl)), (proj1 (B16 eq_refl)); auto|].
           rewrite (proj1 (A10 ltac:(lia))), (proj1 (B10 ltac:(lia))). apply EA. lia.
        -- destruct k1 as [|k1]; [rewrite (proj2 (A16 eq_refl)), (proj2 (B16 eq_refl)); auto|].
           rewrite (proj2 (A10 ltac:(lia))), (proj2 (B10 ltac:(lia))). apply EA. lia.
      * destruct k1 as [|k1].
        -- rewrite (A15 Hge eq_refl), (B15 Hge eq_refl), Ec. constructor; auto.
        -- destruct (AG k1 ltac:(lia) ltac:(lia)) as [EV' _].
           destruct (REP _ _ EV' (A14 Hge ltac:(lia)) (B14 Hge ltac:(lia))) as [K1 [K2 [K3 [K4 K5]]]].
           constructor; auto; try (rewrite A7, B7, L1; reflexivity); try congruence.
           ++ rewrite (proj1 (A10 ltac:(lia))), (proj1 (B10 ltac:(lia))). apply EA. lia.
           ++ rewrite (proj2 (A10 ltac:(lia))), (proj2 (B10 ltac:(lia))). apply EA. lia.
Qed.
Print Assumptions C63_moved.

(** For strongly convex problems without equalities nothing has to be assumed about pivots. *)
Theorem C63_convex T x0 U h amd1 u1 amd2 u2 lam l codes1 q1 codes2 q2 :
  valid_user amd1 u1 -> valid_user amd2 u2 -> covered u1 -> covered u2 ->
  moved T x0 U h (user_qp u1) (user_qp u2) -> u_sigma_d u1 = u_sigma_d u2 -> symmetric (user_qp u1) ->
  dp (user_qp u1) = 0 -> (1 / 100000000000000 < lam)%R -> strongly_convex (user_qp u1) lam ->
  quiet_calls RA u1 l -> quiet_calls RA u2 l -> balanced_session amd1 u1 l -> balanced_session amd2 u2 l ->
  session RA amd1 u1 l = Ok (codes1, q1) -> session RA amd2 u2 l = Ok (codes2, q2) ->
  codes1 = codes2 /\ vars_eq (user_qp u2) (moved_point T x0 U h (dn (user_qp u1)) (dp (user_qp u1)) (vars_of q1)) (vars_of q2) /\ q_options q1 = q_options q2 /\
  moved_stats (objective (user_qp u1) x0) (q_stats q1) (q_stats q2).
Proof.
  intros V1 V2 C1 C2 HQ Hsd Hs Hp Hl Hc Q1 Q2 B1 B2.
  pose proof (mv_convex T x0 U h _ _ HQ lam Hc) as Hc2.
  apply (C63_moved T x0 U h amd1 u1 amd2 u2 l codes1 q1 codes2 q2); auto.
  - eapply C56_regular; eauto.
  - eapply (C56_regular amd2 u2 lam); eauto; [apply (mv_symmetric T x0 U h _ _ HQ Hs)|rewrite (md_p _ _ _ _ _ _ HQ); auto].
Qed.
Print Assumptions C63_convex.


(** A case: minimise (x0^2 + x1^2)/2 subject to x0 >= 1, x1 >= 2, and the same problem with the origin at (1, 1) and the
    axes turned by the rotation with cosine 3/5 and sine 4/5. *)
Definition turned : user R :=
  mkUser 2 2 0 (zs [0; 1; 2]) (zs [0; 1]) (fs RA [1; 1]) None None None
    (zs [0; 2; 4]) (zs [0; 1; 0; 1]) [Some (- (3 / 5)); Some (- (4 / 5)); Some (4 / 5); Some (- (3 / 5))]%R
    [Some (7 / 5); Some (- (1 / 5))]%R (fs RA [0; -1]) None 0%R (Some (zs [0; 1; 2; 3])).
Definition rot (a j : Z) : R := (if a =? 0 then (if j =? 0 then 3 / 5 else - (4 / 5)) else (if j =? 0 then 4 / 5 else 3 / 5))%R.
Definition ones (i : Z) : R := 1%R.

Lemma turned_valid amd : valid_user amd turned.
Proof.
  constructor; cbn [turned u_n u_m u_p u_Pjc u_Pir u_Ppr u_Gjc u_Gir u_Gpr u_c u_h u_perm].
  - lia.
  - lia.
  - csc_concrete.
  - csc_concrete.
  - intros ajc air apr bb E. discriminate E.
  - intros i Hi. enum i; eexists; reflexivity.
  - intros i Hi. enum i; eexists; reflexivity.
  - exists 0, 0, (fofZ RA 1). split; [lia|]. left. exists 0, 1, 0. cbn. repeat split; auto; lia.
  - change (u_N turned) with 4. perm_concrete.
Qed.
Lemma turned_covered : covered turned.
Proof.
  intros i Hi. change (u_m turned) with 2 in Hi. enum i; [exists 0, (- (3 / 5))%R|exists 0, (- (4 / 5))%R]; (split; [cbn; lia|]).
  - exists 0, 2, 0. cbn. repeat split; auto; lia.
  - exists 0, 2, 1. cbn. repeat split; auto; lia.
Qed.

Lemma turned_moved : moved rot ones delta (fun i => i) (user_qp (pair 1 2)) (user_qp turned).
Proof.
  split; try reflexivity; change (dn (user_qp (pair 1 2))) with 2; change (dm (user_qp (pair 1 2))) with 2; change (dp (user_qp (pair 1 2))) with 0.
  - split; intros i j Hi Hj; rewrite Sum2; enum i; enum j; unfold rot, delta; cbn [Z.eqb Pos.eqb]; lra.
  - split; intros i j Hi; lia.
  - split; auto.
  - intros i j Hi Hj. unfold turn. rewrite !Sum2, !pair_P by lia. unfold rot. enum i; enum j; cbn [Z.eqb Pos.eqb].
    + transitivity (1 + 0)%R; [reflexivity|lra].
    + transitivity (0 + 0)%R; [reflexivity|lra].
    + transitivity (0 + 0)%R; [reflexivity|lra].
    + transitivity (1 + 0)%R; [reflexivity|lra].
  - intros i j Hi Hj. unfold turn. rewrite !Sum2, !pair_G by lia. unfold rot. enum i; enum j; cbn [Z.eqb Pos.eqb].
    + transitivity (- (3 / 5) + (0 + 0))%R; [reflexivity|lra].
    + transitivity (4 / 5 + (0 + 0))%R; [reflexivity|lra].
    + transitivity (0 + (- (4 / 5) + 0))%R; [reflexivity|lra].
    + transitivity (0 + (- (3 / 5) + 0))%R; [reflexivity|lra].
  - intros j Hj. unfold turn. rewrite !Sum2, !pair_P, !pair_c by lia. unfold rot, ones. enum j; cbn [Z.eqb Pos.eqb].
    + transitivity (7 / 5)%R; [reflexivity|lra].
    + transitivity (- (1 / 5))%R; [reflexivity|lra].
  - intros i Hi. rewrite !Sum2, !pair_G, !pair_h by lia. unfold ones. enum i; cbn [Z.eqb Pos.eqb].
    + transitivity (IZR 0); [reflexivity|lra].
    + transitivity (IZR (-1)); [reflexivity|lra].
Qed.

Lemma no_solves amd u : balanced_session amd u [].
Proof. intros l1 l2 q c q' k V0 sg ap ad E. destruct l1; discriminate E. Qed.

Lemma turned_balanced amd : balanced_session amd turned [SetOptions RA one_iteration; Solve RA].
Proof.
  intros l1 l2 q c q' k V0 sg ap ad E HT i Hi. apply only_solve in E. subst l1. destruct HT as [cs [F1 [F2 M]]].
  destruct (session_set RA amd turned [] one_iteration cs q F1) as [q0 [G1 Eq]].
  pose proof turned_moved as HM. pose proof (mv_symmetric _ _ _ _ _ _ HM (pair_sym 1 2)) as HS.
  destruct (C47_start_point amd turned (turned_valid amd) turned_covered HS) as [q1 [E0 _]].
  rewrite E0 in G1. injection G1 as <- <-.
  destruct (C47_start_point amd (pair 1 2) (pair_valid amd 1 2) (pair_covered 1 2) (pair_sym 1 2)) as [qp [Ep _]].
  pose proof (pair_start amd 1 2 qp ltac:(lia) ltac:(lia) Ep) as HP.
  assert (QL : forall u, quiet_calls RA u []) by (intros u; right; intros o []).
  destruct (C63_convex rot ones delta (fun i => i) amd (pair 1 2) amd turned 1 [] [] qp [] q1 (pair_valid _ _ _) (turned_valid _)
    (pair_covered _ _) turned_covered HM eq_refl (pair_sym 1 2) eq_refl ltac:(lra) (pair_convex 1 2) (QL _) (QL _)
    (no_solves _ _) (no_solves _ _) Ep E0) as [_ [[_ _ VZ VS] _]].
  pose proof (sm_limit _ _ _ _ _ _ _ _ _ M) as HL.
  assert (Eo : @q_options R q = one_iteration) by (rewrite Eq; reflexivity). rewrite Eo in HL. cbn in HL.
  assert (i = O) by lia. subst i. destruct (sm_from _ _ _ _ _ _ _ _ _ M) as [_ _ Z0 Z1].
  intros j Hj. rewrite (Z0 j), (Z1 j) by auto. cbn [vars_of vs vz]. change (dm (user_qp turned)) with 2 in Hj. destruct (HP j Hj) as [[H1 H2] [H3 H4]].
  assert (Hh : hs q j = hs qp j /\ hz q j = hz qp j).
  { rewrite Eq. split; [symmetry; exact (VS j Hj)|symmetry; exact (VZ j Hj)]. }
  destruct Hh as [-> ->]. lra.
Qed.

Theorem C63_case amd : exists codes1 q1 codes2 q2,
  session RA amd (pair 1 2) [SetOptions RA one_iteration; Solve RA] = Ok (codes1, q1) /\
  session RA amd turned [SetOptions RA one_iteration; Solve RA] = Ok (codes2, q2) /\
  codes1 = codes2 /\
  hx q2 0 = (3 / 5 * (hx q1 0 - 1) + 4 / 5 * (hx q1 1 - 1))%R /\ hx q2 1 = (- (4 / 5) * (hx q1 0 - 1) + 3 / 5 * (hx q1 1 - 1))%R /\
  hz q2 0 = hz q1 0 /\ hs q2 1 = hs q1 1 /\ option_map (fun f => (f - 1)%R) (fval (q_stats q1)) = fval (q_stats q2).
Proof.
  pose proof turned_moved as HM. pose proof (mv_symmetric _ _ _ _ _ _ HM (pair_sym 1 2)) as HS.
  destruct (exact_trace amd (pair 1 2) [SetOptions RA one_iteration] (pair_valid amd 1 2) (pair_covered 1 2) (pair_sym 1 2))
      as [qa [c [q1 [k [W [sg [ap [ad [cs [F1 [E1 M]]]]]]]]]]]; [apply quiet_small; reflexivity|].
  destruct (exact_trace amd turned [SetOptions RA one_iteration] (turned_valid amd) turned_covered HS)
      as [qb [c' [q2 [k' [W' [sg' [ap' [ad' [cs' [F2 [E2 M']]]]]]]]]]]; [apply quiet_small; reflexivity|].
  eexists _, q1, _, q2. split; [exact E1|]. split; [exact E2|].
  destruct (C63_convex rot ones delta (fun i => i) amd (pair 1 2) amd turned 1 _ _ q1 _ q2 (pair_valid _ _ _) (turned_valid _)
    (pair_covered _ _) turned_covered HM eq_refl (pair_sym 1 2) eq_refl ltac:(lra) (pair_convex 1 2)
    (quiet_small _ one_iteration eq_refl) (quiet_small _ one_iteration eq_refl) (pair_balanced amd 1 2 ltac:(lia) ltac:(lia)) (turned_balanced amd) E1 E2)
    as [Ec [[EX _ EZ ES] [_ HF]]].
  assert (I0 : 0 <= 0 < 2) by lia. assert (I1 : 0 <= 1 < 2) by lia.
  pose proof (EX 0 I0) as X0. pose proof (EX 1 I1) as X1. cbn [moved_point vx] in X0, X1. unfold turn in X0, X1.
  change (dn (user_qp (pair 1 2))) with 2 in X0, X1. rewrite Sum2 in X0, X1. unfold rot, ones in X0, X1. cbn [Z.eqb Pos.eqb vars_of vx] in X0, X1.
  split; auto. split; [symmetry; exact X0|]. split; [symmetry; exact X1|]. split; [symmetry; exact (EZ 0 I0)|]. split; [symmetry; exact (ES 1 I1)|].
  destruct HF as [_ _ _ _ _ _ _ _ HF]. assert (EO : objective (user_qp (pair 1 2)) ones = 1%R); [|rewrite EO in HF; exact HF].
  unfold objective. change (dn (user_qp (pair 1 2))) with 2. rewrite !Sum2, !pair_P, !pair_c by lia. unfold ones. cbn [Z.eqb Pos.eqb]. lra.
Qed.
Print Assumptions C63_case.
