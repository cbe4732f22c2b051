(** What every solve of every session computes in exact arithmetic, and what follows for step lengths,
    residuals, complementarity and the centering parameter (C13, C21, C22, C23, C28, C29). *)
From Coq Require Import ZArith Reals List Lia Lra Bool.
From RecordUpdate Require Import RecordUpdate.
From Verif Require Import Res Arith Lists MSparse Csc SemVec TransposeProofs KktProofs MLdl LdlSpec LdlSym LdlNum LdlR LdlFun MSolver VecOps
  Iter SafeInst Setup Session Spec SpecLink QpSpec NewtonR Api Demo P2_Kkt PointR P5_Session P6_Codes StepSpec StepFacts LdlUniq StepLink.
Import ListNotations.
Open Scope Z_scope.

(** What a caller reads in the handle: the point, and the elimination order. *)
Definition vars_of (q : qp R) : vars := mkVars (hx q) (hy q) (hz q) (hs q).
Definition order_in (q : qp R) : Z -> Z := get 0 (k_P (q_kkt q)).

Lemma PointIs_vars u B q0 r q pt : Started RA u B q0 r -> PointIs q B pt -> vars_eq (user_qp u) (pt_vars pt) (vars_of q).
Proof.
  intros HS [H1 H2 H3 H4]. destruct (dims_user u B q0 r HS) as [D1 [D2 D3]].
  split; intros i Hi; symmetry; cbn [pt_vars vars_of vx vy vz vs]; rewrite ?D1, ?D2, ?D3 in Hi; auto.
Qed.

Lemma pivot_change_ext Q ord ord' v e : (forall i, 0 <= i < dn Q + dp Q + dm Q -> ord i = ord' i) ->
  (forall i, 0 <= i < dn Q + dp Q + dm Q -> 0 <= ord' i < dn Q + dp Q + dm Q) ->
  pivot_change Q ord v e -> pivot_change Q ord' v e.
Proof.
  intros H1 H2 [[E0 E1] E2]. split; [split; auto|].
  { eapply regularised_ext; [exact H1| | | |exact E1]; auto. intros i Hi. rewrite H1 by auto. auto. }
  intros HR. apply E2. eapply regular_order_ext; [| | |exact HR]; auto.
  intros i Hi. symmetry. auto.
Qed.

(** Objective value, residual norms and complementarity reported for a point. *)
Record reports_point (Q : QPdata) (st : stats R) (v : vars) : Prop := mkReports {
  rp_fval : fval st = Some (objective Q (vx v));
  rp_rx : n_rx st = Some (Euclid (res_dual Q (vx v) (vy v) (vz v)) (dn Q));
  rp_ry : dp Q <> 0 -> n_ry st = Some (Euclid (res_eq Q (vx v)) (dp Q));
  rp_rz : n_rz st = Some (Euclid (res_in Q (vx v) (vs v)) (dm Q));
  rp_mu : n_mu st = Some (gap Q (vs v) (vz v))
}.

Lemma resid_reports B pt st st' : Dims B -> st <| Flag := 0 |> = (resid_stats RA B pt st') <| Flag := 0 |> ->
  reports_point (qp_of B) st (pt_vars pt).
Proof.
  intros HD E. destruct st as [x1 x2 x3 x4 x5 x6 x7 x8 x9 x10 x11]. cbv [set eta_stats] in E. cbn in E.
  injection E as E1 E2 E3 E4 E5 E6 E7 E8 E10 E11. split; cbn [fval n_rx n_ry n_rz n_mu pt_vars vx vy vz vs].
  - rewrite E8. f_equal. apply fvalF_R.
  - rewrite E2. f_equal. etransitivity; [apply nrm_R|]. apply Euclid_ext. intros i Hi. apply rxF_R; auto.
  - intros Hp. rewrite E3. destruct (Z.eqb_spec (pp B) 0) as [C|C]; [contradiction|]. f_equal.
    etransitivity; [apply nrm_R|]. apply Euclid_ext. intros i Hi. apply ryF_R.
  - rewrite E4. f_equal. etransitivity; [apply nrm_R|]. apply Euclid_ext. intros i Hi. apply rzF_R.
  - rewrite E5. f_equal. apply nmuF_R; auto.
Qed.

(** The full exact-arithmetic meaning of a solve, whatever calls came before it: [k] steps of the method from
    the point in the handle, the first point passing the test ends it. *)
Record solve_meaning (u : user R) (q : qp R) (c : Z) (q' : qp R) (k : nat) (V : nat -> vars) (sg ap ad : nat -> R) : Prop := mkMeaning {
  sm_run : method_run (user_qp u) (order_in q) (u_sigma_d u) (reltol (q_options q)) (abstol (q_options q)) k V sg ap ad;
  sm_int : forall i, (i <= k)%nat -> interior_vars (user_qp u) (V i);
  sm_from : vars_eq (user_qp u) (V O) (vars_of q);
  sm_to : vars_eq (user_qp u) (V k) (vars_of q');
  sm_sg : sg O = sigma (q_options q);
  sm_sg' : sigma (q_options q') = sg k;
  sm_count : IterationCount (q_stats q') = IterationCount (q_stats q) + Z.of_nat k;
  sm_limit : Z.of_nat k <= Z.max 0 (maxit (q_options q));
  sm_stop : Z.of_nat k < maxit (q_options q) -> passes_here u (q_options q) q';
  sm_alpha : (0 < k)%nat -> alpha_p (q_stats q') = ap (pred k) /\ alpha_d (q_stats q') = ad (pred k);
  sm_code : c = (if IterationCount (q_stats q) + Z.of_nat k =? maxit (q_options q) then 2
       else if Z.of_nat k <? maxit (q_options q) then 0 else Flag (q_stats q));
  sm_order : forall i, 0 <= i < u_N u -> order_in q' i = order_in q i;
  sm_stopped : Z.of_nat k < maxit (q_options q) -> reports_point (user_qp u) (q_stats q') (V k);
  sm_limited : maxit (q_options q) <= Z.of_nat k -> (0 < k)%nat -> reports_point (user_qp u) (q_stats q') (V (pred k));
  sm_none : maxit (q_options q) <= Z.of_nat k -> k = O -> q_stats q' = (q_stats q) <| Flag := c |>;
  sm_kept : k = O -> alpha_p (q_stats q') = alpha_p (q_stats q) /\ alpha_d (q_stats q') = alpha_d (q_stats q);
  sm_no_eq : dp (user_qp u) = 0 -> n_ry (q_stats q') = n_ry (q_stats q);
  sm_flag : Flag (q_stats q') = c;
  sm_options : q_options q' = (q_options q) <| sigma := sg k |>
}.

Lemma stats_flag {F} (st : stats F) : st = (st <| Flag := 0 |>) <| Flag := Flag st |>.
Proof. destruct st. reflexivity. Qed.

Section Meaning.
Variables (amd : amd_t) (u : user R) (B : prob R) (q0 : qp R) (r : Z).
Hypothesis V : valid_user amd u.
Hypothesis HS : Started RA u B q0 r.
Hypothesis Hcov : covered u.
Hypothesis Hsym : symmetric (user_qp u).

Lemma order_at q s : At RA B q s -> forall i, 0 <= i < pN B -> order_in q i = pPf B i.
Proof. intros HA i Hi. unfold order_in. apply get_rd. apply (sk_P _ _ _ _ _ _ _ (b_sym _ _ _ (at_base _ _ _ _ HA))). exact Hi. Qed.

Lemma walk_run q s k : At RA B q s -> interior RA B Rpos (sn_pt RA s) ->
  (forall j, (j < k)%nat -> stops RA B (walk RA B j s) = false) ->
  method_run (user_qp u) (order_in q) (u_sigma_d u) (reltol (sn_o RA s)) (abstol (sn_o RA s)) k
    (fun i => pt_vars (sn_pt RA (walk RA B i s))) (fun i => sigma (sn_o RA (walk RA B i s)))
    (fun i => apF RA B (sn_pt RA (walk RA B i s)) (sigma (sn_o RA (walk RA B i s))))
    (fun i => adF RA B (sn_pt RA (walk RA B i s)) (sigma (sn_o RA (walk RA B i s)))).
Proof.
  intros HA HI Hno i Hi. pose proof (started_qp u B q0 r HS) as EQ. rewrite <- EQ in *. pose proof (started_dims amd u B q0 r V HS) as HD.
  pose proof (walk_interior RA B Rpos i s Safe_R HI) as HIi. pose proof (at_base _ _ _ _ HA) as HB.
  specialize (Hno i Hi). cbn [walk]. set (t := walk RA B i s) in *.
  assert (Ht : reltol (sn_o RA t) = reltol (sn_o RA s) /\ abstol (sn_o RA t) = abstol (sn_o RA s))
    by (split; [apply walk_reltol|apply walk_abstol]).
  clearbody t. split.
  - intros HP. assert (C : stopF RA B (sn_pt RA t) (sn_o RA t) = true).
    { apply (stopF_R B HD (sn_pt RA t) (sn_o RA t)). destruct Ht as [-> ->]. exact HP. }
    unfold stops in Hno. congruence.
  - pose proof (sd_perm _ _ _ _ _ HS) as HPm. pose proof (started_rows RA amd u B q0 r V HS Hcov) as HR.
    exists (pertF B (sn_pt RA t)). split.
    + apply (pivot_change_ext _ (pPf B)).
      * intros a Ha. symmetry. apply (order_at q s HA). exact Ha.
      * intros a Ha. rewrite (order_at q s HA) by exact Ha. apply (pf_range _ _ _ HPm). exact Ha.
      * apply pertF_change; auto. apply (b_forest _ _ _ HB).
    + destruct (sd_n _ _ _ _ _ HS) as [_ [_ [_ Esd]]]. cbn [car RA] in *. rewrite <- Esd.
      apply step_method; auto. apply (b_forest _ _ _ HB).
Qed.

Lemma solve_means_walk q s q' : At RA B q s -> interior RA B Rpos (sn_pt RA s) -> At RA B q' (solveF RA B s) ->
  exists k, ((forall j, (j < k)%nat -> stops RA B (walk RA B j s) = false) /\ Z.of_nat k <= Z.max 0 (maxit (sn_o RA s)) /\
      (Z.of_nat k < maxit (sn_o RA s) -> stops RA B (walk RA B k s) = true)) /\
    solve_meaning u q (Flag (q_stats q')) q' k (fun i => pt_vars (sn_pt RA (walk RA B i s))) (fun i => sigma (sn_o RA (walk RA B i s)))
      (fun i => apF RA B (sn_pt RA (walk RA B i s)) (sigma (sn_o RA (walk RA B i s))))
      (fun i => adF RA B (sn_pt RA (walk RA B i s)) (sigma (sn_o RA (walk RA B i s)))).
Proof.
  intros HA HI HA'. pose proof (started_dims amd u B q0 r V HS) as HD.
  assert (G : exists k, (forall j, (j < k)%nat -> stops RA B (walk RA B j s) = false) /\ Z.of_nat k <= Z.max 0 (maxit (sn_o RA s)) /\
    (Z.of_nat k < maxit (sn_o RA s) -> stops RA B (walk RA B k s) = true) /\
    sn_pt RA (solveF RA B s) = sn_pt RA (walk RA B k s) /\ sn_o RA (solveF RA B s) = sn_o RA (walk RA B k s) /\
    IterationCount (sn_st RA (solveF RA B s)) = IterationCount (sn_st RA s) + Z.of_nat k /\
    (sn_st RA (solveF RA B s)) <| Flag := 0 |> = (if Z.of_nat k <? maxit (sn_o RA s) then
       resid_stats RA B (sn_pt RA (walk RA B k s)) (sn_st RA (walk RA B k s)) else sn_st RA (walk RA B k s)) <| Flag := 0 |> /\
    Flag (sn_st RA (solveF RA B s)) = (if IterationCount (sn_st RA s) + Z.of_nat k =? maxit (sn_o RA s) then 2
       else if Z.of_nat k <? maxit (sn_o RA s) then 0 else Flag (sn_st RA s))).
  { destruct (solveF_any RA B s) as [[i [H1 [H2 [H3 [H4 [H5 H6]]]]]]|[H1 [H2 [H3 H4]]]].
    - exists i. split; auto. split; [lia|]. split; auto. rewrite H6, H4. destruct (finalF_cases RA (stop_snap RA B (walk RA B i s))) as [Hf Hp].
      rewrite H3. split; [exact Hp|]. split; [rewrite finalF_o; reflexivity|]. split; [reflexivity|].
      destruct (Z.ltb_spec (Z.of_nat i) (maxit (sn_o RA s))); [|lia].
      destruct Hf as [-> | ->]; repeat split.
    - exists (Z.to_nat (maxit (sn_o RA s))). split; [intros j Hj; apply H1; lia|]. split; [lia|]. split; [lia|].
      rewrite H4. destruct (finalF_cases RA (walk RA B (Z.to_nat (maxit (sn_o RA s))) s)) as [Hf Hp].
      rewrite H3. rewrite H2. split; [exact Hp|]. split; [rewrite finalF_o; reflexivity|]. split; [lia|].
      replace (IterationCount (sn_st RA s) + Z.of_nat (Z.to_nat (maxit (sn_o RA s)))) with
        (IterationCount (sn_st RA s) + Z.max 0 (maxit (sn_o RA s))) by lia.
      destruct (Z.ltb_spec (Z.of_nat (Z.to_nat (maxit (sn_o RA s)))) (maxit (sn_o RA s))); [lia|].
      destruct Hf as [-> | ->]; repeat split. }
  destruct G as [k [Hno [Hk [Hst [Ep [Eo [Ei [Est Ef]]]]]]]].
  assert (Est1 : Z.of_nat k < maxit (sn_o RA s) -> (sn_st RA (solveF RA B s)) <| Flag := 0 |> =
    (resid_stats RA B (sn_pt RA (walk RA B k s)) (sn_st RA (walk RA B k s))) <| Flag := 0 |>)
    by (intros Hlt; rewrite (proj2 (Z.ltb_lt _ _) Hlt) in Est; exact Est).
  assert (Est2 : maxit (sn_o RA s) <= Z.of_nat k -> (sn_st RA (solveF RA B s)) <| Flag := 0 |> = (sn_st RA (walk RA B k s)) <| Flag := 0 |>)
    by (intros Hle; rewrite (proj2 (Z.ltb_ge _ _) Hle) in Est; exact Est).
  assert (Eal : alpha_p (sn_st RA (solveF RA B s)) = alpha_p (sn_st RA (walk RA B k s)) /\
    alpha_d (sn_st RA (solveF RA B s)) = alpha_d (sn_st RA (walk RA B k s))).
  { split; [apply (f_equal alpha_p) in Est|apply (f_equal alpha_d) in Est]; destruct (_ <? _) in Est; exact Est. }
  destruct Eal as [Eap Ead].
  exists k. split; [auto|].
  destruct (dims_user u B q0 r HS) as [D1 [D2 D3]]. destruct (sd_n _ _ _ _ _ HS) as [En [Em [Ee _]]]. cbn [car RA] in *.
  pose proof (Pt_is _ _ _ (at_pt _ _ _ _ HA)) as PI. pose proof (Pt_is _ _ _ (at_pt _ _ _ _ HA')) as PI'. rewrite Ep in PI'.
  assert (O1 : @q_options R q = sn_o RA s) by apply (at_o _ _ _ _ HA).
  assert (O2 : @q_options R q' = sn_o RA (solveF RA B s)) by apply (at_o _ _ _ _ HA').
  assert (S1 : @q_stats R q = sn_st RA s) by apply (at_st _ _ _ _ HA).
  assert (S2 : @q_stats R q' = sn_st RA (solveF RA B s)) by apply (at_st _ _ _ _ HA').
  split.
  - rewrite O1. apply walk_run; auto.
  - intros i _ j Hj. rewrite D2 in Hj. destruct (walk_interior RA B Rpos i s Safe_R HI) as [I1 I2]. split; [apply I1|apply I2]; auto.
  - apply (PointIs_vars u B q0 r q _ HS PI).
  - apply (PointIs_vars u B q0 r q' _ HS PI').
  - rewrite O1. reflexivity.
  - rewrite O2, Eo. reflexivity.
  - rewrite S2, S1. exact Ei.
  - rewrite O1. exact Hk.
  - rewrite O1. intros Hlt. apply (passes_handle amd u B q0 r V HS q' _ _ PI').
    specialize (Hst Hlt). unfold stops, stopF in *. rewrite walk_reltol, walk_abstol in Hst. exact Hst.
  - intros Hpos. destruct k as [|k]; [lia|]. rewrite S2, Eap, Ead. split; reflexivity.
  - rewrite S1, O1. etransitivity; [apply (f_equal Flag S2)|]. exact Ef.
  - intros i Hi. assert (HN : 0 <= i < pN B) by (unfold pN, u_N in *; cbn [car RA] in *; lia).
    rewrite (order_at q s HA i HN), (order_at q' _ HA' i HN). reflexivity.
  - rewrite O1. intros Hlt. rewrite S2, <- (started_qp u B q0 r HS). eapply resid_reports; [exact HD|exact (Est1 Hlt)].
  - rewrite O1. intros Hle Hpos. destruct k as [|k]; [lia|]. cbn [pred]. rewrite S2, <- (started_qp u B q0 r HS).
    specialize (Est2 Hle).
    pose proof (resid_reports B (sn_pt RA (walk RA B k s)) (resid_stats RA B (sn_pt RA (walk RA B k s)) (sn_st RA (walk RA B k s))) _ HD eq_refl) as [R1 R2 R3 R4 R5].
    split; [rewrite <- R1|rewrite <- R2|intros Hp; rewrite <- (R3 Hp)|rewrite <- R4|rewrite <- R5];
      [apply (f_equal fval) in Est2|apply (f_equal n_rx) in Est2|apply (f_equal n_ry) in Est2|apply (f_equal n_rz) in Est2|apply (f_equal n_mu) in Est2];
      exact Est2.
  - rewrite O1. intros Hle ->. specialize (Est2 Hle). rewrite S1. cbn [walk] in Est2.
    etransitivity; [apply (stats_flag (q_stats q'))|]. rewrite S2. etransitivity; [apply (f_equal (fun st => st <| Flag := _ |>) Est2)|]. reflexivity.
  - intros ->. rewrite S2, S1, Eap, Ead. split; reflexivity.
  - intros Hp. rewrite S1, S2. transitivity (n_ry (sn_st RA (walk RA B k s))).
    + destruct (Z.lt_ge_cases (Z.of_nat k) (maxit (sn_o RA s))) as [Hlt|Hle]; [|exact (f_equal n_ry (Est2 Hle))].
      etransitivity; [exact (f_equal n_ry (Est1 Hlt))|]. cbn.
      rewrite (proj2 (Z.eqb_eq (pp B) 0)) by (cbn [car RA] in *; lia). reflexivity.
    + clear - Hp D3. induction k as [|k IH]; [reflexivity|]. cbn [walk sn_st]. etransitivity; [|exact IH]. cbn.
      rewrite (proj2 (Z.eqb_eq (pp B) 0)) by (cbn [car RA] in *; lia). reflexivity.
  - reflexivity.
  - rewrite O1, O2, Eo. clear. induction k as [|k IH]; cbn [walk sn_o].
    + destruct (sn_o RA s); reflexivity.
    + etransitivity; [apply (f_equal (fun o => o <| sigma := _ |>) IH)|]. destruct (sn_o RA s); reflexivity.
Qed.

Lemma solve_means q s q' : At RA B q s -> interior RA B Rpos (sn_pt RA s) -> At RA B q' (solveF RA B s) ->
  exists k V sg ap ad, solve_meaning u q (Flag (q_stats q')) q' k V sg ap ad.
Proof. intros H1 H2 H3. destruct (solve_means_walk q s q' H1 H2 H3) as [k [_ M]]. eauto 6. Qed.
End Meaning.

(** Exact arithmetic, every solve of every session. *)
Theorem exact_solve amd u l : valid_user amd u -> covered u -> symmetric (user_qp u) -> quiet_calls RA u (l ++ [Solve RA]) ->
  exists codes q c q' k V sg ap ad, session RA amd u l = Ok (codes, q) /\ session RA amd u (l ++ [Solve RA]) = Ok (codes ++ [c], q') /\
    solve_meaning u q c q' k V sg ap ad.
Proof.
  intros V Hc Hsym Hq. destruct (session_from RA Rpos Safe_R amd u V) as [q0 [B [r [E [HS HF]]]]].
  destruct (HF (l ++ [Solve RA]) Hq) as [q' [E2 [HA2 Hi2]]].
  assert (Hq1 : quiet_calls RA u l).
  { destruct Hq as [H|H]; [left; auto|right]. intros o Ho. apply H. apply in_or_app. auto. }
  destruct (HF l Hq1) as [q [E1 [HA1 Hi1]]].
  rewrite callsF_app in E2, HA2, Hi2. cbn [fst snd callsF] in E2, HA2, Hi2.
  destruct (solve_means amd u B q0 r V HS Hc Hsym q _ q' HA1 Hi1 HA2) as [k [Vs [sg [ap [ad HM]]]]].
  exists (fst (callsF RA B (fresh RA B r) l)), q, (Flag (q_stats q')), q', k, Vs, sg, ap, ad.
  split; [exact E1|]. split; [|exact HM]. rewrite (at_st _ _ _ _ HA2). exact E2.
Qed.
Print Assumptions exact_solve.

(** A solve after the calls [l], with its meaning. *)
Definition solved amd u l q c q' k V sg ap ad : Prop :=
  exists codes, session RA amd u l = Ok (codes, q) /\ session RA amd u (l ++ [Solve RA]) = Ok (codes ++ [c], q') /\
    solve_meaning u q c q' k V sg ap ad.

Definition regular_at (Q : QPdata) (ord : Z -> Z) (v : vars) : Prop :=
  regular_order (dn Q + dp Q + dm Q) (kkt_matrix Q (fun i => vs v i / vz v i)%R) ord.

(** Every solve has such a trace. *)
Theorem exact_trace amd u l : valid_user amd u -> covered u -> symmetric (user_qp u) -> quiet_calls RA u (l ++ [Solve RA]) ->
  exists q c q' k V sg ap ad, solved amd u l q c q' k V sg ap ad.
Proof.
  intros H1 H2 H3 H4. destruct (exact_solve amd u l H1 H2 H3 H4) as [codes [q [c [q' [k [V [sg [ap [ad H]]]]]]]]].
  exists q, c, q', k, V, sg, ap, ad, codes. exact H.
Qed.

(** The handles of a trace are the only ones the calls can produce. *)
Lemma solved_unique amd u l q c q' k V sg ap ad codes1 q1 codes2 q2 : solved amd u l q c q' k V sg ap ad ->
  session RA amd u l = Ok (codes1, q1) -> session RA amd u (l ++ [Solve RA]) = Ok (codes2, q2) ->
  q1 = q /\ q2 = q' /\ codes2 = codes1 ++ [c].
Proof. intros [codes [E1 [E2 _]]] F1 F2. rewrite E1 in F1. rewrite E2 in F2. injection F1 as <- <-. injection F2 as <- <-. auto. Qed.

Open Scope R_scope.

Lemma dims_nonneg amd (u : user R) : valid_user amd u -> (0 <= dn (user_qp u) /\ 1 <= dm (user_qp u) /\ 0 <= dp (user_qp u))%Z.
Proof.
  intros HV. pose proof (vu_n _ _ HV). pose proof (vu_m _ _ HV). unfold user_qp.
  destruct (u_eqs u) as [[[[ajc air] apr] bb]|] eqn:E; cbn [dn dm dp]; [|lia]. destruct (vu_A _ _ HV _ _ _ _ E). lia.
Qed.

Section Steps.
Variables (amd : amd_t) (u : user R) (l : list (call RA)) (q : qp R) (c : Z) (q' : qp R) (k : nat).
Variables (V : nat -> vars) (sg ap ad : nat -> R).
Hypothesis HT : solved amd u l q c q' k V sg ap ad.
Hypothesis HV : valid_user amd u.
Notation Q := (user_qp u).

Lemma solved_step i : (i < k)%nat -> interior_vars Q (V i) /\ exists e d rc, pivot_change Q (order_in q) (V i) e /\
  direction Q e (V i) rc d /\ damped_step Q (vs (V i)) (vs d) (ap i) /\ damped_step Q (vz (V i)) (vz d) (ad i) /\
  moves Q (V i) d (ap i) (ad i) (V (S i)) /\ step_direction Q e (u_sigma_d u) (sg i) (V i) d (sg (S i)).
Proof.
  intros Hi. destruct HT as [codes [_ [_ M]]]. split; [apply (sm_int _ _ _ _ _ _ _ _ _ M); lia|].
  destruct (sm_run _ _ _ _ _ _ _ _ _ M i Hi) as [_ [e [He [d [H1 [H2 [H3 H4]]]]]]].
  destruct (step_has_direction _ _ _ _ _ _ _ H1) as [rc Hd]. exists e, d, rc. auto 10.
Qed.

(** C13: every iteration of every solve. *)
Theorem C13_step_lengths i : (i < k)%nat -> 0 < ap i <= 1 /\ 0 < ad i <= 1 /\
  exists d bp bd, moves Q (V i) d (ap i) (ad i) (V (S i)) /\
    step_length (vs (V i)) (vs d) (dm Q) bp /\ ap i = Rmin (99 / 100 * bp) 1 /\
    step_length (vz (V i)) (vz d) (dm Q) bd /\ ad i = Rmin (99 / 100 * bd) 1.
Proof.
  intros Hi. destruct (solved_step i Hi) as [HI [e [d [rc [_ [_ [H2 [H3 [H4 _]]]]]]]]].
  split; [eapply damped_range; [|exact H2]; intros j Hj; apply HI; auto|].
  split; [eapply damped_range; [|exact H3]; intros j Hj; apply HI; auto|].
  destruct H2 as [bp [B1 B2]], H3 as [bd [B3 B4]]. exists d, bp, bd. auto.
Qed.

(** The step lengths reported are those of the last step. *)
Theorem C13_reported : (0 < k)%nat -> 0 < alpha_p (q_stats q') <= 1 /\ 0 < alpha_d (q_stats q') <= 1.
Proof.
  intros Hk. destruct HT as [codes [_ [_ M]]]. destruct (sm_alpha _ _ _ _ _ _ _ _ _ M Hk) as [E1 E2].
  rewrite E1, E2. destruct (C13_step_lengths (pred k) ltac:(lia)) as [H1 [H2 _]]. auto.
Qed.

(** C21: primal residuals. *)
Theorem C21_primal_residuals i : (i < k)%nat -> regular_at Q (order_in q) (V i) ->
  (forall j, (0 <= j < dp Q)%Z -> res_eq Q (vx (V (S i))) j = (1 - ap i) * res_eq Q (vx (V i)) j) /\
  (forall j, (0 <= j < dm Q)%Z -> res_in Q (vx (V (S i))) (vs (V (S i))) j = (1 - ap i) * res_in Q (vx (V i)) (vs (V i)) j).
Proof.
  intros Hi HR. destruct (solved_step i Hi) as [HI [e [d [rc [[_ He] [Hd [_ [_ [HM _]]]]]]]]]. specialize (He HR).
  destruct HT as [codes [_ [_ M]]]. split; intros j Hj.
  - rewrite (moved_eq Q e rc (V i) d (V (S i)) (ap i) (ad i) Hd HM j Hj). rewrite He; [ring|]. pose proof (dims_nonneg amd u HV). lia.
  - rewrite (moved_in Q e rc (V i) d (V (S i)) (ap i) (ad i) Hd HM j Hj). rewrite He; [ring|]. pose proof (dims_nonneg amd u HV). lia.
Qed.

(** Their norms never grow. *)
Theorem C21_norms i : (i < k)%nat -> regular_at Q (order_in q) (V i) ->
  Euclid (res_eq Q (vx (V (S i)))) (dp Q) = (1 - ap i) * Euclid (res_eq Q (vx (V i))) (dp Q) /\
  Euclid (res_in Q (vx (V (S i))) (vs (V (S i)))) (dm Q) = (1 - ap i) * Euclid (res_in Q (vx (V i)) (vs (V i))) (dm Q) /\
  0 <= 1 - ap i < 1.
Proof.
  intros Hi HR. destruct (C21_primal_residuals i Hi HR) as [H1 H2]. destruct (C13_step_lengths i Hi) as [Ha _].
  split; [|split; [|lra]].
  - rewrite (Euclid_ext _ (fun j => (1 - ap i) * res_eq Q (vx (V i)) j)) by auto. rewrite Euclid_scal, Rabs_pos_eq; lra.
  - rewrite (Euclid_ext _ (fun j => (1 - ap i) * res_in Q (vx (V i)) (vs (V i)) j)) by auto. rewrite Euclid_scal, Rabs_pos_eq; lra.
Qed.

(** With regularised pivots: the deviation is bounded by the change of the multiplier. *)
Theorem C21_regularised i : (i < k)%nat ->
  (forall j, (0 <= j < dp Q)%Z -> Rabs (res_eq Q (vx (V (S i))) j - (1 - ap i) * res_eq Q (vx (V i)) j)
     <= ap i / ad i * (1 / 10000000 + 1 / 100000000000000) * Rabs (vy (V (S i)) j - vy (V i) j)) /\
  (forall j, (0 <= j < dm Q)%Z -> Rabs (res_in Q (vx (V (S i))) (vs (V (S i))) j - (1 - ap i) * res_in Q (vx (V i)) (vs (V i)) j)
     <= ap i / ad i * (1 / 10000000 + 1 / 100000000000000) * Rabs (vz (V (S i)) j - vz (V i) j)).
Proof.
  intros Hi. destruct (solved_step i Hi) as [HI [e [d [rc [[He _] [Hd [_ [_ [HM _]]]]]]]]].
  destruct (C13_step_lengths i Hi) as [Ha [Hb _]].
  assert (G : forall ee x x' w, Rabs ee <= 1 / 10000000 + 1 / 100000000000000 -> x' = x + ad i * w ->
     Rabs (ap i * (ee * w)) <= ap i / ad i * (1 / 10000000 + 1 / 100000000000000) * Rabs (x' - x)).
  { intros ee x x' w Hee ->. replace (x + ad i * w - x) with (ad i * w) by ring. rewrite !Rabs_mult.
    rewrite (Rabs_pos_eq (ap i)), (Rabs_pos_eq (ad i)) by lra.
    replace (ap i / ad i * (1 / 10000000 + 1 / 100000000000000) * (ad i * Rabs w))
      with (ap i * ((1 / 10000000 + 1 / 100000000000000) * Rabs w)) by (field; lra).
    apply Rmult_le_compat_l; [lra|]. apply Rmult_le_compat_r; [apply Rabs_pos|exact Hee]. }
  split; intros j Hj.
  - rewrite (moved_eq Q e rc (V i) d (V (S i)) (ap i) (ad i) Hd HM j Hj).
    match goal with |- Rabs ?t <= _ => replace t with (ap i * (e (dn Q + j)%Z * vy d j)) by ring end.
    apply G; [apply He|apply (mv_y _ _ _ _ _ _ HM); auto].
  - rewrite (moved_in Q e rc (V i) d (V (S i)) (ap i) (ad i) Hd HM j Hj).
    match goal with |- Rabs ?t <= _ => replace t with (ap i * (e (dn Q + dp Q + j)%Z * vz d j)) by ring end.
    apply G; [apply He|apply (mv_z _ _ _ _ _ _ HM); auto].
Qed.

(** Over a whole solve: the residuals of the returned point are those of the starting point times the product of
    the factors. *)
Fixpoint shrink (a : nat -> R) (i : nat) : R := match i with O => 1 | S i => (1 - a i) * shrink a i end.

Theorem C21_whole_solve : (forall i, (i < k)%nat -> regular_at Q (order_in q) (V i)) ->
  0 <= shrink ap k <= 1 /\ ((0 < k)%nat -> shrink ap k < 1) /\
  (forall j, (0 <= j < dp Q)%Z -> res_eq Q (hx q') j = shrink ap k * res_eq Q (hx q) j) /\
  (forall j, (0 <= j < dm Q)%Z -> res_in Q (hx q') (hs q') j = shrink ap k * res_in Q (hx q) (hs q) j).
Proof.
  intros HR.
  assert (G : forall i, (i <= k)%nat -> 0 <= shrink ap i <= 1 /\ ((0 < i)%nat -> shrink ap i < 1) /\
    (forall j, (0 <= j < dp Q)%Z -> res_eq Q (vx (V i)) j = shrink ap i * res_eq Q (vx (V O)) j) /\
    (forall j, (0 <= j < dm Q)%Z -> res_in Q (vx (V i)) (vs (V i)) j = shrink ap i * res_in Q (vx (V O)) (vs (V O)) j)).
  { induction i as [|i IH]; intros Hi; cbn [shrink].
    - split; [lra|]. split; [lia|]. split; intros; ring.
    - destruct (IH ltac:(lia)) as [I1 [_ [I2 I3]]]. destruct (C21_primal_residuals i ltac:(lia) (HR i ltac:(lia))) as [H1 H2].
      destruct (C13_step_lengths i ltac:(lia)) as [Ha _].
      assert (Hle : (1 - ap i) * shrink ap i <= 1 - ap i).
      { rewrite <- (Rmult_1_r (1 - ap i)) at 2. apply Rmult_le_compat_l; lra. }
      split; [split; [apply Rmult_le_pos; lra|lra]|]. split; [intros _; lra|]. split; intros j Hj.
      + rewrite H1, I2 by auto. ring.
      + rewrite H2, I3 by auto. ring. }
  destruct HT as [codes [_ [_ M]]]. destruct (G k ltac:(lia)) as [G1 [G2 [G3 G4]]].
  destruct (sm_from _ _ _ _ _ _ _ _ _ M) as [X0 _ _ S0]. destruct (sm_to _ _ _ _ _ _ _ _ _ M) as [Xk _ _ Sk].
  split; auto. split; auto. split; intros j Hj.
  - specialize (G3 j Hj). rewrite <- (res_eq_ext Q (vx (V k)) (hx q')), <- (res_eq_ext Q (vx (V O)) (hx q)); [exact G3|exact X0|exact Xk].
  - specialize (G4 j Hj). rewrite <- (res_in_ext Q (vx (V k)) (hx q') (vs (V k)) (hs q')), <- (res_in_ext Q (vx (V O)) (hx q) (vs (V O)) (hs q));
      [exact G4|exact X0|exact S0|exact Hj|exact Xk|exact Sk|exact Hj].
Qed.

(** C22: dual residual. *)
Theorem C22_dual_residual i j : (i < k)%nat -> regular_at Q (order_in q) (V i) -> (0 <= j < dn Q)%Z ->
  res_dual Q (vx (V (S i))) (vy (V (S i))) (vz (V (S i))) j =
  (1 - ad i) * res_dual Q (vx (V i)) (vy (V i)) (vz (V i)) j +
  (ad i - ap i) / ap i * Sum (dn Q) (fun t => dP Q j t * (vx (V (S i)) t - vx (V i) t)).
Proof.
  intros Hi HR Hj. destruct (solved_step i Hi) as [HI [e [d [rc [[_ He] [Hd [_ [_ [HM _]]]]]]]]]. specialize (He HR).
  destruct (C13_step_lengths i Hi) as [Ha _].
  rewrite (moved_dual Q e rc (V i) d (V (S i)) (ap i) (ad i) Hd HM j Hj).
  rewrite He by (pose proof (dims_nonneg amd u HV); lia).
  rewrite (Sum_ext (dn Q) (fun t => dP Q j t * (vx (V (S i)) t - vx (V i) t)) (fun t => ap i * (dP Q j t * vx d t))).
  - rewrite Sum_scal. field. lra.
  - intros t Ht. rewrite (mv_x _ _ _ _ _ _ HM) by auto. ring.
Qed.

Theorem C22_equal_steps i j : (i < k)%nat -> regular_at Q (order_in q) (V i) -> (0 <= j < dn Q)%Z -> ap i = ad i ->
  res_dual Q (vx (V (S i))) (vy (V (S i))) (vz (V (S i))) j = (1 - ad i) * res_dual Q (vx (V i)) (vy (V i)) (vz (V i)) j.
Proof. intros Hi HR Hj E. rewrite (C22_dual_residual i j Hi HR Hj), E. unfold Rdiv. ring. Qed.

(** C23: the three kinds of direction; [d] is the direction of the step that is taken. *)
Theorem C23_complementarity i : (i < k)%nat -> exists d, moves Q (V i) d (ap i) (ad i) (V (S i)) /\
  let S := vs (V i) in let Z := vz (V i) in
  ((u_sigma_d u < sg i /\ exists dp, 
      (forall j, (0 <= j < dm Q)%Z -> Z j * vs dp j + S j * vz dp j = - (S j * Z j)) /\
      (forall j, (0 <= j < dm Q)%Z -> Z j * vs d j + S j * vz d j = - (S j * Z j) - vs dp j * vz dp j + sg (Datatypes.S i) * gap Q S Z)) \/
   (sg i <= u_sigma_d u /\ sg (Datatypes.S i) = u_sigma_d u /\
      forall j, (0 <= j < dm Q)%Z -> Z j * vs d j + S j * vz d j = - (S j * Z j) + u_sigma_d u * gap Q S Z)).
Proof.
  intros Hi. destruct (solved_step i Hi) as [HI [e [d [rc [_ [_ [_ [_ [HM HD]]]]]]]]]. exists d. split; auto. cbv zeta.
  destruct HD as [dp a1 a2 H1 H2 H3 H4 H5 H6|H1 H2 H3].
  - left. split; auto. exists dp. split; [apply (dir_s _ _ _ _ _ H2)|apply (dir_s _ _ _ _ _ H6)].
  - right. split; auto. split; auto. apply (dir_s _ _ _ _ _ H3).
Qed.

(** C28: the centering parameter of every iteration. *)
Theorem C28_sigma_range i : (i < k)%nat -> u_sigma_d u <= sg (S i) <= Rmax (u_sigma_d u) 1.
Proof. intros Hi. destruct (solved_step i Hi) as [HI [e [d [rc [_ [_ [_ [_ [_ HD]]]]]]]]]. eapply next_sigma_range; eauto. Qed.

Theorem C28_sigma_value i : (i < k)%nat -> u_sigma_d u < sg i -> exists e dp bp bd,
  pivot_change Q (order_in q) (V i) e /\ direction Q e (V i) (fun j => - (vs (V i) j * vz (V i) j)) dp /\
  step_length (vs (V i)) (vs dp) (dm Q) bp /\ step_length (vz (V i)) (vz dp) (dm Q) bd /\
  sg (S i) = Rmax (u_sigma_d u) (Rmin 1 (reduction Q (V i) dp bp bd) ^ 3).
Proof.
  intros Hi Hs. destruct (solved_step i Hi) as [HI [e [d [rc [He [_ [_ [_ [_ HD]]]]]]]]].
  destruct HD as [dp a1 a2 H1 H2 H3 H4 H5 H6|H1 H2 H3]; [|lra]. exists e, dp, a1, a2. auto.
Qed.

(** Once at the lower limit, always centering. *)
Theorem C28_stays i j : (i <= j <= k)%nat -> sg i <= u_sigma_d u -> (i < j)%nat -> sg j = u_sigma_d u.
Proof.
  intros Hj Hs Hlt.
  assert (G : forall t, (i + t <= k)%nat -> (0 < t)%nat -> sg (i + t)%nat = u_sigma_d u).
  { induction t as [|t IH]; intros Ht Hp; [lia|].
    assert (Hle : sg (i + t)%nat <= u_sigma_d u).
    { destruct t; [rewrite Nat.add_0_r; auto|]. rewrite IH by lia. lra. }
    destruct (solved_step (i + t)%nat ltac:(lia)) as [_ [e [d [rc [_ [_ [_ [_ [_ HD]]]]]]]]].
    replace (i + S t)%nat with (S (i + t)) by lia. destruct HD as [dp a1 a2 H1 H2 H3 H4 H5 H6|H1 H2 H3]; [lra|auto]. }
  replace j with (i + (j - i))%nat by lia. apply G; lia.
Qed.

(** What the options hold afterwards. *)
Theorem C28_stored : ((0 < k)%nat -> u_sigma_d u <= sigma (q_options q') <= Rmax (u_sigma_d u) 1) /\
  (sigma (q_options q) = u_sigma_d u -> sigma (q_options q') = u_sigma_d u).
Proof.
  pose proof HT as [codes [_ [_ M]]]. rewrite (sm_sg' _ _ _ _ _ _ _ _ _ M). split.
  - intros Hk. replace k with (S (pred k)) by lia. apply C28_sigma_range. lia.
  - intros E. rewrite <- (sm_sg _ _ _ _ _ _ _ _ _ M) in E. destruct (Nat.eq_dec k 0) as [->|]; [exact E|].
    apply (C28_stays O k); try lia. lra.
Qed.
End Steps.

Print Assumptions exact_trace.
Print Assumptions C13_step_lengths.
Print Assumptions C13_reported.
Print Assumptions C21_primal_residuals.
Print Assumptions C21_norms.
Print Assumptions C21_regularised.
Print Assumptions C21_whole_solve.
Print Assumptions C22_dual_residual.
Print Assumptions C22_equal_steps.
Print Assumptions C23_complementarity.
Print Assumptions C28_sigma_range.
Print Assumptions C28_sigma_value.
Print Assumptions C28_stays.
Print Assumptions C28_stored.

(** A case: minimise x^2/2 subject to x >= 1, eliminated in the natural order, which is regular at every interior
    point; one iteration is made because nothing meets the tolerance 0. *)
Definition natural : user R := (small RA) <| u_perm := Some (zs [0; 1]%Z) |>.
Definition one_iteration : settings R := (default_settings RA) <| maxit := 1%Z |> <| abstol := 0 |>.

Lemma natural_valid amd : valid_user amd natural.
Proof.
  destruct (small_valid RA amd) as [H1 H2 H3 H4 H5 H6 H7 H8 H9]. split; auto. cbn. change (u_N natural) with 2%Z. perm_concrete.
Qed.

Lemma natural_regular v ord : interior_vars (user_qp natural) v -> (forall i, (0 <= i < 2)%Z -> ord i = i) ->
  regular_at (user_qp natural) ord v.
Proof.
  intros HI Ho. destruct (HI 0%Z ltac:(cbn; lia)) as [Hs Hz].
  assert (E : forall a c, (0 <= a < 2)%Z -> (0 <= c < 2)%Z -> kkt_matrix (user_qp natural) (fun i => vs v i / vz v i) a c =
    if (a =? 0)%Z then (if (c =? 0)%Z then 1 else -1) else if (c =? 0)%Z then -1 else - (vs v 0%Z / vz v 0%Z)).
  { intros a c Ha Hc. enum a; enum c; cbv - [Rdiv Ropp Rplus Rmult IZR vs vz]; try lra; reflexivity. }
  unfold regular_at. change (dn (user_qp natural) + dp (user_qp natural) + dm (user_qp natural))%Z with 2%Z.
  exists (fun i j => if (i =? j)%Z then 1 else if (j <? i)%Z then -1 else 0),
    (fun j => if (j =? 0)%Z then 1 else - (vs v 0%Z / vz v 0%Z) - 1).
  split; [|split; [|split]].
  - intros i Hi. rewrite Z.eqb_refl. reflexivity.
  - intros i j Hi Hj. destruct (Z.eqb_spec i j); [lia|]. destruct (Z.ltb_spec j i); [lia|]. reflexivity.
  - intros i j Hi Hj. rewrite !Ho by auto. rewrite E by auto. enum i; enum j; cbv - [Rdiv Ropp Rplus Rminus Rmult IZR vs vz]; ring.
  - assert (0 < vs v 0%Z / vz v 0%Z) by (apply Rdiv_lt_0_compat; auto).
    intros j Hj. enum j; cbn [Z.eqb]; [rewrite Rabs_pos_eq; lra|rewrite Rabs_left; lra].
Qed.

Lemma session_options A amd u o codes q : session A amd u [SetOptions A o] = Ok (codes, q) ->
  exists q1, setup A amd u = Ok q1 /\ q_options q = o /\ k_P (q_kkt q) = k_P (q_kkt q1).
Proof.
  unfold session. destruct (setup A amd u) as [q1| |]; intros E; try discriminate E. cbn in E. injection E as _ <-. exists q1. auto.
Qed.

Example steps_case amd : exists q c q' V sg ap ad, valid_user amd natural /\ covered natural /\ symmetric (user_qp natural) /\
  solved amd natural [SetOptions RA one_iteration] q c q' 1 V sg ap ad /\ regular_at (user_qp natural) (order_in q) (V O).
Proof.
  pose proof (natural_valid amd) as HV. pose proof (small_covered RA : covered natural) as HC.
  assert (HS : symmetric (user_qp natural)).
  { intros i j Hi Hj. change (dn (user_qp natural)) with 1%Z in *. enum i. enum j. reflexivity. }
  assert (HQ : quiet_calls RA natural ([SetOptions RA one_iteration] ++ [Solve RA])).
  { right. intros o [E|[E|[]]]; [injection E as <-; cbn; lia|discriminate E]. }
  destruct (exact_trace amd natural _ HV HC HS HQ) as [q [c [q' [k [V [sg [ap [ad HT]]]]]]]].
  pose proof HT as [codes [E1 [E2 M]]].
  assert (E0 : @q_options R q = one_iteration /\ forall i, (0 <= i < 2)%Z -> order_in q i = i).
  { destruct (session_options RA amd natural one_iteration codes q E1) as [q1 [Eq [Eo EP]]].
    split; [exact Eo|]. destruct (setup_started RA amd natural q1 div_ok_R HV Eq) as [B [r HSt]].
    destruct (sd_user _ _ _ _ _ HSt) as [EP' _]. intros i Hi. unfold order_in. cbn [car RA] in *. rewrite EP, EP'. enum i; reflexivity. }
  destruct E0 as [Eo EP].
  assert (Hk : k = 1%nat).
  { pose proof (sm_limit _ _ _ _ _ _ _ _ _ M) as HL. pose proof (sm_stop _ _ _ _ _ _ _ _ _ M) as Hst. rewrite Eo in HL, Hst. cbn in HL.
    destruct k as [|[|k]]; [exfalso|reflexivity|lia].
    destruct (Hst ltac:(cbn; lia)) as [_ [_ [_ Hg]]]. change (abstol one_iteration) with 0 in Hg.
    pose proof (sm_int _ _ _ _ _ _ _ _ _ M O ltac:(lia) 0%Z ltac:(cbn; lia)) as [I1 I2].
    destruct (sm_to _ _ _ _ _ _ _ _ _ M) as [_ _ Z0 S0]. rewrite (S0 0%Z) in I1 by (cbn; lia). rewrite (Z0 0%Z) in I2 by (cbn; lia).
    cbn [vars_of vs vz] in I1, I2. assert (0 < hs q' 0%Z * hz q' 0%Z) by (apply Rmult_lt_0_compat; auto).
    unfold gap in Hg. change (dm (user_qp natural)) with 1%Z in Hg. unfold Sum in Hg.
    rewrite (zr_cons 0 1), (zr_nil 1) in Hg by lia. cbn [sumr] in Hg. lra. }
  subst k. exists q, c, q', V, sg, ap, ad. split; auto. split; auto. split; auto. split; auto.
  apply natural_regular; auto. apply (sm_int _ _ _ _ _ _ _ _ _ M). lia.
Qed.
