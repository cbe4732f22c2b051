(** C57: renaming the variables and constraints of the problem renames the answer. *)
From Coq Require Import ZArith Reals List Lia Lra Bool.
From RecordUpdate Require Import RecordUpdate.
From Verif Require Import Res Arith Lists MSparse Csc MSolver QpSpec Api Demo PointR P5_Session P6_Codes StepSpec StepFacts P2_Kkt SafeInst LdlR VecOps Spec Session
  P7_Step StepUniq QpFacts P8_Problem P8_Cases QuasiDef P16_Convex Relabel.
Import ListNotations.
Open Scope Z_scope.

Section Runs.
Variables (f g h : Z -> Z) (Q Q' : QPdata).
Hypothesis HQ : relabelled f g h Q Q'.
Hypothesis Dn : 0 <= dn Q.
Hypothesis Dm : 0 <= dm Q.
Hypothesis Dp : 0 <= dp Q.
Variables (ord ord' : Z -> Z) (sd rt at_ : R) (k k' : nat) (V V' : nat -> vars) (sg ap ad sg' ap' ad' : nat -> R).
Hypothesis HO : order_of (dn Q' + dp Q' + dm Q') ord'.
Hypothesis R1 : method_run Q ord sd rt at_ k V sg ap ad.
Hypothesis R2 : method_run Q' ord' sd rt at_ k' V' sg' ap' ad'.
Hypothesis G1 : forall i, (i < k)%nat -> regular_at Q ord (V i).
Hypothesis G2 : forall i, (i < k')%nat -> regular_at Q' ord' (V' i).
Hypothesis I2 : forall i, (i <= k')%nat -> interior_vars Q' (V' i).
Hypothesis E0 : vars_eq Q' (renamed f g h (V O)) (V' O).
Hypothesis S0 : sg O = sg' O.

Lemma runs_renamed i : (i <= k)%nat -> (i <= k')%nat -> vars_eq Q' (renamed f g h (V i)) (V' i) /\ sg i = sg' i /\
  forall j, (j < i)%nat -> ap j = ap' j /\ ad j = ad' j.
Proof.
  induction i as [|i IH]; intros Hk Hk'; [split; auto; split; auto; intros; lia|].
  destruct (IH ltac:(lia) ltac:(lia)) as [IV [IS IA]].
  destruct (R1 i ltac:(lia)) as [_ [e [[_ He] M1]]]. destruct (R2 i ltac:(lia)) as [_ [e' [[_ He'] M2]]].
  specialize (He (G1 i ltac:(lia))). specialize (He' (G2 i ltac:(lia))).
  pose proof (ren_step f g h Q Q' HQ Dn Dm Dp e _ _ _ _ _ _ _ He M1) as M1'.
  assert (M1'' : method_step Q' (fun _ => 0%R) sd (sg' i) (V' i) (renamed f g h (V (S i))) (ap i) (ad i) (sg (S i))).
  { eapply method_step_ext; [exact IV|apply vars_eq_refl|]. rewrite <- IS. exact M1'. }
  assert (He1 : no_change Q' (fun _ => 0%R)) by (intros a Ha; reflexivity).
  assert (Dn' : 0 <= dn Q') by (rewrite (rl_n _ _ _ _ _ HQ); auto). assert (Dm' : 0 <= dm Q') by (rewrite (rl_m _ _ _ _ _ HQ); auto).
  assert (Dp' : 0 <= dp Q') by (rewrite (rl_p _ _ _ _ _ HQ); auto).
  destruct (method_step_unique Q' Dn' Dm' Dp' ord' sd (sg' i) (V' i) _ e' _ (V' (S i)) (ap i) (ap' i) (ad i) (ad' i) (sg (S i)) (sg' (S i))
    HO (G2 i ltac:(lia)) (I2 i ltac:(lia)) He1 He' M1'' M2) as [EV [EA [ED ES]]].
  split; auto. split; auto. intros j Hj. destruct (Nat.eq_dec j i) as [->|]; auto. apply IA. lia.
Qed.
End Runs.

(** Reports of the same point under both names are equal. *)
Lemma reports_renamed f g h Q Q' a b v w : relabelled f g h Q Q' -> vars_eq Q' (renamed f g h v) w -> reports_point Q a v -> reports_point Q' b w ->
  fval a = fval b /\ n_rx a = n_rx b /\ n_rz a = n_rz b /\ n_mu a = n_mu b /\ (dp Q <> 0 -> n_ry a = n_ry b).
Proof.
  intros HQ [EX EY EZ ES] [A1 A2 A3 A4 A5] [B1 B2 B3 B4 B5].
  destruct (ren_norms f g h Q Q' HQ v) as [N1 [N2 N3]].
  rewrite A1, A2, A4, A5, B1, B2, B4, B5, <- N1, <- N3, <- (ren_objective f g h Q Q' HQ), <- (ren_gap f g h Q Q' HQ).
  split; [f_equal; apply objective_ext; exact EX|]. split; [f_equal; apply Euclid_ext; intros; apply res_dual_ext; auto|].
  split; [f_equal; apply Euclid_ext; intros; apply res_in_ext; auto|]. split; [f_equal; apply gap_ext; auto|].
  intros Hp. rewrite A3, B3 by (auto; rewrite (rl_p _ _ _ _ _ HQ); auto). rewrite <- N2. f_equal. apply Euclid_ext. intros. apply res_eq_ext; auto.
Qed.

(** C57: two callers whose problems differ in the names of variables, equalities and inequalities get the same codes and
    statistics, and the same answer under the new names. *)
Theorem C57_renamed f g h amd1 u1 amd2 u2 l codes1 q1 codes2 q2 :
  valid_user amd1 u1 -> valid_user amd2 u2 -> covered u1 -> covered u2 ->
  relabelled f g h (user_qp u1) (user_qp u2) -> u_sigma_d u1 = u_sigma_d u2 -> symmetric (user_qp u1) ->
  quiet_calls RA u1 l -> quiet_calls RA u2 l -> regular_session amd1 u1 l -> regular_session amd2 u2 l ->
  session RA amd1 u1 l = Ok (codes1, q1) -> session RA amd2 u2 l = Ok (codes2, q2) ->
  codes1 = codes2 /\ vars_eq (user_qp u2) (renamed f g h (vars_of q1)) (vars_of q2) /\ q_options q1 = q_options q2 /\
  same_stats (q_stats q1) (q_stats q2).
Proof.
  intros V1 V2 C1 C2 HQ Hsd Hs. pose proof (ren_symmetric f g h _ _ HQ Hs) as Hs2.
  destruct (dims_nonneg amd1 u1 V1) as [Dn [Dm Dp]]. destruct (dims_nonneg amd2 u2 V2) as [Dn2 [Dm2 Dp2]].
  destruct (user_dims u1) as [En1 [Em1 Ep1]]. destruct (user_dims u2) as [En2 [Em2 Ep2]].
  assert (EN1 : u_N u1 = dn (user_qp u1) + dp (user_qp u1) + dm (user_qp u1)) by (unfold u_N; lia).
  assert (EN2 : u_N u2 = dn (user_qp u2) + dp (user_qp u2) + dm (user_qp u2)) by (unfold u_N; lia).
  assert (Dm' : 0 <= dm (user_qp u1)) by lia. assert (Dm2' : 0 <= dm (user_qp u2)) by lia.
  revert codes1 q1 codes2 q2. induction l as [|[o|] l IH] using rev_ind; intros codes1 q1 codes2 q2 Q1 Q2 G1 G2 E1 E2.
  - destruct (C47_start_point amd1 u1 V1 C1 Hs) as [p1 [F1 [O1 [P1 [T1 [e1 [[_ N1] S1]]]]]]]. rewrite E1 in F1. injection F1 as -> <-.
    destruct (C47_start_point amd2 u2 V2 C2 Hs2) as [p2 [F2 [O2 [P2 [T2 [e2 [[_ N2] S2]]]]]]]. rewrite E2 in F2. injection F2 as -> <-.
    pose proof (rs_start _ _ _ G1 _ _ E1) as R1. pose proof (rs_start _ _ _ G2 _ _ E2) as R2.
    rewrite EN1 in R1. rewrite EN2 in R2, O2. specialize (N1 R1). specialize (N2 R2).
    split; auto. split; [|split].
    + eapply (start_unique (user_qp u2) Dn2 Dm2' Dp2 (order_in q2) (fun _ => 0%R) e2); eauto.
      * intros a Ha. reflexivity.
      * apply (ren_start f g h _ _ HQ Dn Dm' Dp e1 _ N1 S1).
    + congruence.
    + apply (f_equal (fun st => st <| resolve_kkt := None |>)) in T1, T2. etransitivity; [exact T1|symmetry; exact T2].
  - destruct (session_set RA amd1 u1 l o _ _ E1) as [p1 [F1 ->]]. destruct (session_set RA amd2 u2 l o _ _ E2) as [p2 [F2 ->]].
    destruct (IH _ _ _ _ (quiet_prefix _ _ _ _ Q1) (quiet_prefix _ _ _ _ Q2) (regular_prefix _ _ _ _ G1) (regular_prefix _ _ _ _ G2) F1 F2)
      as [H1 [H2 [H3 H4]]]. split; auto.
  - destruct (exact_trace amd1 u1 l V1 C1 Hs Q1) as [p1 [c1 [p1' [k1 [W1 [sg1 [ap1 [ad1 T1]]]]]]]].
    destruct (exact_trace amd2 u2 l V2 C2 Hs2 Q2) as [p2 [c2 [p2' [k2 [W2 [sg2 [ap2 [ad2 T2]]]]]]]].
    pose proof T1 as [cs1 [F1 [F1' M1]]]. pose proof T2 as [cs2 [F2 [F2' M2]]].
    rewrite E1 in F1'. injection F1' as -> <-. rewrite E2 in F2'. injection F2' as -> <-.
    destruct (IH _ _ _ _ (quiet_prefix _ _ _ _ Q1) (quiet_prefix _ _ _ _ Q2) (regular_prefix _ _ _ _ G1) (regular_prefix _ _ _ _ G2) F1 F2)
      as [H1 [H2 [H3 H4]]]. clear IH.
    destruct M1 as [A1 A2 A3 A4 A5 A6 A7 A8 A9 A10 A11 A12 A13 A14 A15 A16 A17 A18 A19].
    destruct M2 as [B1 B2 B3 B4 B5 B6 B7 B8 B9 B10 B11 B12 B13 B14 B15 B16 B17 B18 B19].
    destruct (handle_after amd2 u2 l _ _ V2 (quiet_prefix _ _ _ _ Q2) F2) as [O0 _].
    assert (O2 : order_of (dn (user_qp u2) + dp (user_qp u2) + dm (user_qp u2)) (order_in p2)) by (rewrite <- EN2; exact O0). clear O0.
    assert (RG1 : forall i, (i < k1)%nat -> regular_at (user_qp u1) (order_in p1) (W1 i)) by (intros i Hi; eapply (rs_solves _ _ _ G1 l []); eauto).
    assert (RG2 : forall i, (i < k2)%nat -> regular_at (user_qp u2) (order_in p2) (W2 i)) by (intros i Hi; eapply (rs_solves _ _ _ G2 l []); eauto).
    cbn [car RA] in *. change (@q_options R p1 = @q_options R p2) in H3. change (@u_sigma_d R u1 = @u_sigma_d R u2) in Hsd.
    rewrite <- H3, <- Hsd in B1. rewrite <- H3 in B5, B8, B9, B11, B13, B14, B15, B19.
    assert (E0 : vars_eq (user_qp u2) (renamed f g h (W1 O)) (W2 O)).
    { eapply vars_eq_trans; [exact (ren_vars f g h _ _ HQ _ _ A3)|]. eapply vars_eq_trans; [exact H2|]. apply vars_eq_sym. exact B3. }
    assert (AG := runs_renamed f g h (user_qp u1) (user_qp u2) HQ Dn Dm' Dp (order_in p1) (order_in p2) (u_sigma_d u1) _ _ k1 k2
      W1 W2 sg1 ap1 ad1 sg2 ap2 ad2 O2 A1 B1 RG1 RG2 B2 E0 ltac:(congruence)).
    assert (Ek : k1 = k2).
    { destruct (Nat.lt_trichotomy k1 k2) as [Hlt|[Hk|Hlt]]; auto; exfalso.
      - destruct (AG k1 ltac:(lia) ltac:(lia)) as [EV _]. destruct (B1 k1 Hlt) as [Hno _]. apply Hno.
        assert (Hp : passes_at (user_qp u2) (reltol (q_options p1)) (abstol (q_options p1)) (renamed f g h (vars_of q1))).
        { apply (ren_passes f g h _ _ HQ). exact (A9 ltac:(lia)). }
        unfold passes_at in *.
        destruct (vars_eq_trans _ _ _ _ (vars_eq_sym _ _ _ EV) (ren_vars f g h _ _ HQ _ _ A4)) as [X1 X2 X3 X4].
        exact (proj2 (passes_ext (user_qp u2) _ _ _ _ _ _ _ _ X1 X2 X3 X4 _ _) Hp).
      - destruct (AG k2 ltac:(lia) ltac:(lia)) as [EV _]. destruct (A1 k2 Hlt) as [Hno _]. apply Hno.
        apply (ren_passes f g h _ _ HQ). pose proof (B9 ltac:(lia)) as Hp. unfold passes_here in Hp. unfold passes_at.
        destruct (vars_eq_trans _ _ _ _ EV B4) as [X1 X2 X3 X4].
        exact (proj2 (passes_ext (user_qp u2) _ _ _ _ _ _ _ _ X1 X2 X3 X4 _ _) Hp). }
    subst k2. destruct (AG k1 ltac:(lia) ltac:(lia)) as [EV [ES EA]].
    change (@same_stats (@q_stats R p1) (@q_stats R p2)) in H4.
    destruct (same_stats_elim _ _ H4) as [L1 [L2 [L3 [L4 [L5 [L6 [L7 [L8 L9]]]]]]]].
    assert (Ec : c1 = c2) by (rewrite A11, B11, L1, L9; reflexivity).
    split; [congruence|]. split; [|split].
    + eapply vars_eq_trans; [apply vars_eq_sym; exact (ren_vars f g h _ _ HQ _ _ A4)|]. eapply vars_eq_trans; [exact EV|]. exact B4.
    + etransitivity; [exact A19|]. rewrite ES. symmetry. exact B19.
    + change (@same_stats (@q_stats R q1) (@q_stats R q2)).
      assert (REP : forall v w, vars_eq (user_qp u2) (renamed f g h v) w -> reports_point (user_qp u1) (q_stats q1) v -> reports_point (user_qp u2) (q_stats q2) w ->
         fval (q_stats q1) = fval (q_stats q2) /\ n_rx (q_stats q1) = n_rx (q_stats q2) /\ n_rz (q_stats q1) = n_rz (q_stats q2) /\
         n_mu (q_stats q1) = n_mu (q_stats q2) /\ n_ry (q_stats q1) = n_ry (q_stats q2)).
      { intros v w Hv Ra Rb. destruct (reports_renamed f g h _ _ _ _ _ _ HQ Hv Ra Rb) as [K1 [K2 [K3 [K4 K5]]]].
        do 4 (split; auto). destruct (Z.eq_dec (dp (user_qp u1)) 0) as [Ez|Ez]; auto.
        rewrite A17, B17; auto. rewrite (rl_p _ _ _ _ _ HQ). exact Ez. }
      destruct (Z.lt_ge_cases (Z.of_nat k1) (maxit (q_options p1))) as [Hlt|Hge].
      * destruct (REP _ _ EV (A13 Hlt) (B13 Hlt)) as [K1 [K2 [K3 [K4 K5]]]].
        apply same_stats_intro; auto; try (rewrite A7, B7, L1; reflexivity); try congruence.
        -- destruct k1 as [|k1]; [rewrite (proj1 (A16 eq_refl)), (proj1 (B16 eq_refl)); auto|].
           rewrite (proj1 (A10 ltac:(lia))), (proj1 (B10 ltac:(lia))). apply EA. lia.
        -- destruct k1 as [|k1]; [rewrite (proj2 (A16 eq_refl)), (proj2 (B16 eq_refl)); auto|].
           rewrite (proj2 (A10 ltac:(lia))), (proj2 (B10 ltac:(lia))). apply EA. lia.
      * destruct k1 as [|k1].
        -- rewrite (A15 Hge eq_refl), (B15 Hge eq_refl), Ec. unfold same_stats in *.
           apply (f_equal (fun st => st <| Flag := c2 |>)) in H4. exact H4.
        -- destruct (AG k1 ltac:(lia) ltac:(lia)) as [EV' _].
           destruct (REP _ _ EV' (A14 Hge ltac:(lia)) (B14 Hge ltac:(lia))) as [K1 [K2 [K3 [K4 K5]]]].
           apply same_stats_intro; auto; try (rewrite A7, B7, L1; reflexivity); try congruence.
           ++ rewrite (proj1 (A10 ltac:(lia))), (proj1 (B10 ltac:(lia))). apply EA. lia.
           ++ rewrite (proj2 (A10 ltac:(lia))), (proj2 (B10 ltac:(lia))). apply EA. lia.
Qed.
Print Assumptions C57_renamed.

(** For strongly convex problems without equalities nothing has to be assumed about pivots. *)
Theorem C57_convex f g h amd1 u1 amd2 u2 lam l codes1 q1 codes2 q2 :
  valid_user amd1 u1 -> valid_user amd2 u2 -> covered u1 -> covered u2 ->
  relabelled f g h (user_qp u1) (user_qp u2) -> u_sigma_d u1 = u_sigma_d u2 -> symmetric (user_qp u1) ->
  dp (user_qp u1) = 0 -> (1 / 100000000000000 < lam)%R -> strongly_convex (user_qp u1) lam ->
  quiet_calls RA u1 l -> quiet_calls RA u2 l -> balanced_session amd1 u1 l -> balanced_session amd2 u2 l ->
  session RA amd1 u1 l = Ok (codes1, q1) -> session RA amd2 u2 l = Ok (codes2, q2) ->
  codes1 = codes2 /\ vars_eq (user_qp u2) (renamed f g h (vars_of q1)) (vars_of q2) /\ q_options q1 = q_options q2 /\
  same_stats (q_stats q1) (q_stats q2).
Proof.
  intros V1 V2 C1 C2 HQ Hsd Hs Hp Hl Hc Q1 Q2 B1 B2.
  assert (Hc2 : strongly_convex (user_qp u2) lam).
  { intros v. pose proof (rl_f _ _ _ _ _ HQ) as HO. set (n := dn (user_qp u1)) in *.
    assert (HI : exists w, forall i, 0 <= i < n -> w (f i) = v i).
    { destruct (order_inverse n f HO) as [inv HI]. exists (fun a => v (inv a)). intros i Hi. rewrite HI; auto. }
    destruct HI as [w Hw]. rewrite (rl_n _ _ _ _ _ HQ). fold n. specialize (Hc w). fold n in Hc.
    rewrite (Sum_order n f (fun i => w i * w i)%R HO) in Hc. rewrite (Sum_order n f (fun i => w i * _)%R HO) in Hc.
    rewrite (Sum_ext n (fun k => w (f k) * w (f k))%R (fun i => v i * v i)%R) in Hc by (intros i Hi; rewrite Hw; auto).
    eapply Rle_trans; [exact Hc|]. apply Req_le. apply Sum_ext. intros i Hi. rewrite Hw by auto. f_equal.
    rewrite (Sum_order n f (fun c => dP (user_qp u1) (f i) c * w c)%R HO). apply Sum_ext. intros j Hj. rewrite Hw by auto.
    rewrite (rl_P _ _ _ _ _ HQ) by auto. reflexivity. }
  apply (C57_renamed f g h amd1 u1 amd2 u2 l codes1 q1 codes2 q2); auto.
  - eapply C56_regular; eauto.
  - eapply (C56_regular amd2 u2 lam); eauto; [apply (ren_symmetric f g h _ _ HQ Hs)|rewrite (rl_p _ _ _ _ _ HQ); auto].
Qed.
Print Assumptions C57_convex.

(** A case: minimise (x0^2 + x1^2)/2 subject to x0 >= 1, x1 >= 2, and the same with both names swapped. *)
Definition pair (a b : Z) : user R :=
  mkUser 2 2 0 (zs [0; 1; 2]) (zs [0; 1]) (fs RA [1; 1]) None None None (zs [0; 1; 2]) (zs [0; 1]) (fs RA [-1; -1])
    (fs RA [0; 0]) (fs RA [-a; -b]) None 0%R (Some (zs [0; 1; 2; 3])).
Definition swap (i : Z) : Z := 1 - i.

Lemma pair_valid amd r t : valid_user amd (pair r t).
Proof.
  constructor; cbn [pair u_n u_m u_p u_Pjc u_Pir u_Ppr u_Gjc u_Gir u_Gpr u_c u_h u_perm].
  - lia.
  - lia.
  - csc_concrete.
  - csc_concrete.
  - intros ajc air apr bb E. discriminate E.
  - intros i Hi. enum i; eexists; reflexivity.
  - intros i Hi. enum i; eexists; reflexivity.
  - exists 0, 0, (fofZ RA 1). split; [lia|]. left. exists 0, 1, 0. cbn. repeat split; auto; lia.
  - change (u_N (pair r t)) with 4. perm_concrete.
Qed.
Lemma pair_covered a b : covered (pair a b).
Proof.
  intros i Hi. change (u_m (pair a b)) with 2 in Hi. enum i; [exists 0, (fofZ RA (-1))|exists 1, (fofZ RA (-1))]; (split; [cbn; lia|]).
  - exists 0, 1, 0. cbn. repeat split; auto; lia.
  - exists 1, 2, 1. cbn. repeat split; auto; lia.
Qed.

Lemma pair_P a b i j : 0 <= i < 2 -> 0 <= j < 2 -> dP (user_qp (pair a b)) i j = (if i =? j then 1 else 0)%R.
Proof. intros Hi Hj. enum i; enum j; cbv - [Rplus IZR Ropp]; lra. Qed.
Lemma pair_G a b i j : 0 <= i < 2 -> 0 <= j < 2 -> dG (user_qp (pair a b)) i j = (if i =? j then -1 else 0)%R.
Proof. intros Hi Hj. enum i; enum j; cbv - [Rplus IZR Ropp]; lra. Qed.
Lemma pair_c a b i : 0 <= i < 2 -> dc (user_qp (pair a b)) i = 0%R.
Proof. intros Hi. enum i; cbv - [Rplus IZR Ropp]; lra. Qed.
Lemma pair_h a b i : 0 <= i < 2 -> dh (user_qp (pair a b)) i = (if i =? 0 then - IZR a else - IZR b)%R.
Proof. intros Hi. rewrite <- !opp_IZR. enum i; reflexivity. Qed.
Lemma pair_sym a b : symmetric (user_qp (pair a b)).
Proof. intros i j Hi Hj. change (dn (user_qp (pair a b))) with 2 in *. rewrite !pair_P by auto. rewrite Z.eqb_sym. reflexivity. Qed.
Lemma pair_convex a b : strongly_convex (user_qp (pair a b)) 1.
Proof. intros v. change (dn (user_qp (pair a b))) with 2. rewrite !Sum2, !pair_P by lia. cbn [Z.eqb Pos.eqb]. lra. Qed.

Lemma swap_order : order_of 2 swap.
Proof. split; unfold swap; intros; lia. Qed.
Lemma pair_swap a b : relabelled swap (fun i => i) swap (user_qp (pair a b)) (user_qp (pair b a)).
Proof.
  split; try reflexivity; try exact swap_order.
  - split; auto.
  - intros i j Hi Hj. change (dn (user_qp (pair a b))) with 2 in *. rewrite !pair_P by (unfold swap; lia). enum i; enum j; reflexivity.
  - intros i j Hi Hj. change (dm (user_qp (pair a b))) with 2 in *. change (dn (user_qp (pair a b))) with 2 in *. rewrite !pair_G by (unfold swap; lia). enum i; enum j; reflexivity.
  - intros i Hi. change (dn (user_qp (pair a b))) with 2 in *. rewrite !pair_c by (unfold swap; lia). reflexivity.
  - intros i Hi. change (dm (user_qp (pair a b))) with 2 in *. rewrite !pair_h by (unfold swap; lia). enum i; reflexivity.
Qed.

(** Where setup starts. *)
Lemma pair_start amd a b q : 1 <= a <= 2 -> 1 <= b <= 2 -> session RA amd (pair a b) [] = Ok ([], q) ->
  forall i, 0 <= i < 2 -> (1 / 2 <= hs q i <= 10 /\ 1 / 2 <= hz q i <= 10)%R.
Proof.
  intros Ha Hb E. set (u := pair a b) in *. pose proof (pair_valid amd a b : valid_user amd u) as V.
  pose proof (pair_covered a b : covered u) as C. pose proof (pair_sym a b : symmetric (user_qp u)) as Y.
  destruct (C47_start_point amd u V C Y) as [q1 [E1 [_ [_ [_ [e [[_ He] HS]]]]]]].
  rewrite E in E1. injection E1 as <-.
  pose proof (C56_start_regular amd u 1 V C Y ltac:(lra) (pair_convex a b) [] q eq_refl E) as HR. specialize (He HR).
  change (dn (user_qp u) + dp (user_qp u) + dm (user_qp u)) with 4 in He.
  destruct HS as [[t [X [_ T]]] [s0 [[HA1 [i0 [Hi0 A2]]] S]] [s1 [[HB1 [i1 [Hi1 B2]]] Zz]]].
  change (dn (user_qp u)) with 2 in *. change (dm (user_qp u)) with 2 in *. change (dp (user_qp u)) with 0 in *.
  pose proof (X 0 ltac:(lia)) as X0. pose proof (X 1 ltac:(lia)) as X1. pose proof (T 0 ltac:(lia)) as T0. pose proof (T 1 ltac:(lia)) as T1.
  assert (IZR 1 <= IZR a <= IZR 2)%R by (split; apply IZR_le; lia). assert (IZR 1 <= IZR b <= IZR 2)%R by (split; apply IZR_le; lia).
  rewrite Sum0, !Sum2 in X0, X1. rewrite Sum2 in T0, T1. rewrite !He in X0, X1, T0, T1 by lia. unfold u in X0, X1, T0, T1.
  rewrite !pair_P, !pair_G, !pair_c in X0, X1 by lia. rewrite !pair_G, !pair_h in T0, T1 by lia. cbn [Z.eqb Pos.eqb] in X0, X1, T0, T1.
  assert (EX : vx (vars_of q) 0 = (IZR a / 2)%R /\ vx (vars_of q) 1 = (IZR b / 2)%R) by lra.
  assert (SL : slack (user_qp u) (vx (vars_of q)) 0 = (- IZR a / 2)%R /\ slack (user_qp u) (vx (vars_of q)) 1 = (- IZR b / 2)%R).
  { unfold slack. change (dn (user_qp u)) with 2. rewrite !Sum2. unfold u. rewrite !pair_G, !pair_h by lia. cbn [Z.eqb Pos.eqb]. lra. }
  destruct SL as [L0 L1].
  pose proof (HA1 0 ltac:(lia)) as Q0. pose proof (HA1 1 ltac:(lia)) as Q1. pose proof (HB1 0 ltac:(lia)) as Q2. pose proof (HB1 1 ltac:(lia)) as Q3.
  assert (R0 : (-1 <= s0 <= -1/2)%R) by (enum i0; lra). assert (R1 : (-1 <= s1 <= -1/2)%R) by (enum i1; lra).
  intros i Hi. pose proof (S i Hi) as Si. pose proof (Zz i Hi) as Zi. cbn [vars_of vs vz] in Si, Zi. rewrite Si, Zi.
  destruct (Rlt_dec 0 s0); [lra|]. destruct (Rlt_dec s1 0); [|lra]. enum i; lra.
Qed.

Lemma pair_balanced amd a b : 1 <= a <= 2 -> 1 <= b <= 2 -> balanced_session amd (pair a b) [SetOptions RA one_iteration; Solve RA].
Proof.
  intros Ha Hb l1 l2 q c q' k V0 sg ap ad E HT i Hi. apply only_solve in E. subst l1. destruct HT as [cs [F1 [F2 M]]].
  destruct (session_set RA amd (pair a b) [] one_iteration cs q F1) as [q0 [G1 Eq]].
  destruct (C47_start_point amd (pair a b) (pair_valid amd a b) (pair_covered a b) (pair_sym a b)) as [q1 [E0 _]].
  rewrite E0 in G1. injection G1 as <- <-. pose proof (pair_start amd a b q1 Ha Hb E0) as HS.
  pose proof (sm_limit _ _ _ _ _ _ _ _ _ M) as HL.
  assert (Eo : @q_options R q = one_iteration) by (rewrite Eq; reflexivity). rewrite Eo in HL. cbn in HL.
  assert (i = O) by lia. subst i. destruct (sm_from _ _ _ _ _ _ _ _ _ M) as [_ _ Z0 Z1].
  intros j Hj. rewrite (Z0 j), (Z1 j) by auto. cbn [vars_of vs vz]. change (dm (user_qp (pair a b))) with 2 in Hj. destruct (HS j Hj) as [[H1 H2] [H3 H4]].
  assert (Hh : hs q j = hs q1 j /\ hz q j = hz q1 j) by (rewrite Eq; split; reflexivity). destruct Hh as [-> ->]. lra.
Qed.

Theorem C57_case amd : exists codes1 q1 codes2 q2,
  session RA amd (pair 1 2) [SetOptions RA one_iteration; Solve RA] = Ok (codes1, q1) /\
  session RA amd (pair 2 1) [SetOptions RA one_iteration; Solve RA] = Ok (codes2, q2) /\
  codes1 = codes2 /\ hx q1 0 = hx q2 1 /\ hx q1 1 = hx q2 0 /\ hz q1 0 = hz q2 1 /\ hs q1 0 = hs q2 1.
Proof.
  assert (HE : forall a b, exists codes q, session RA amd (pair a b) [SetOptions RA one_iteration; Solve RA] = Ok (codes, q)).
  { intros a b. destruct (exact_trace amd (pair a b) [SetOptions RA one_iteration] (pair_valid amd a b) (pair_covered a b) (pair_sym a b))
      as [q [c [q' [k [W [sg [ap [ad [cs [F1 [F2 M]]]]]]]]]]]; [apply quiet_small; reflexivity|]. eauto. }
  destruct (HE 1 2) as [codes1 [q1 E1]]. destruct (HE 2 1) as [codes2 [q2 E2]]. exists codes1, q1, codes2, q2.
  destruct (C57_convex swap (fun i => i) swap amd (pair 1 2) amd (pair 2 1) 1 _ codes1 q1 codes2 q2 (pair_valid _ _ _) (pair_valid _ _ _)
    (pair_covered _ _) (pair_covered _ _) (pair_swap 1 2) eq_refl (pair_sym 1 2) eq_refl ltac:(lra) (pair_convex 1 2)
    (quiet_small _ one_iteration eq_refl) (quiet_small _ one_iteration eq_refl) (pair_balanced amd 1 2 ltac:(lia) ltac:(lia)) (pair_balanced amd 2 1 ltac:(lia) ltac:(lia)) E1 E2)
    as [Ec [[EX _ EZ ES] _]].
  assert (I0 : 0 <= 0 < 2) by lia. assert (I1 : 0 <= 1 < 2) by lia.
  split; auto. split; auto. split; auto. split; [exact (EX 1 I1)|]. split; [exact (EX 0 I0)|]. split; [exact (EZ 1 I1)|exact (ES 1 I1)].
Qed.
Print Assumptions C57_case.
