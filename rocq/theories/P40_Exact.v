(** Exit code 0 in exact arithmetic, for any solve of any session (C14, C15, C16, C45, C46, C78 beyond the first solve). *)
From Coq Require Import ZArith Reals List Lia Lra Bool.
From RecordUpdate Require Import RecordUpdate.
From Verif Require Import Res Arith Lists MSparse Csc SemVec MSolver VecOps Iter SafeInst Setup Session Spec SpecLink QpSpec NewtonR Api Demo P2_Kkt PointR P5_Session P6_Codes
  StepSpec StepFacts StepLink P7_Step QpFacts P8_Problem P8_Cases P38_Locate.
Import ListNotations.
Open Scope Z_scope.

(** The solve at the end of the session [l ++ [Solve]] returned 0, and the code is not left over from an earlier call: the
    call before it did not return 0, or fewer than [maxit] iterations were made.  ([q0] is the handle before, [q] after.) *)
Record earned_zero (amd : amd_t) (u : user R) (l : list (call RA)) (codes : list Z) (q0 q : qp R) : Prop := mkEarned {
  ez_quiet : quiet_calls RA u (l ++ [Solve RA]);
  ez_before : session RA amd u l = Ok (codes, q0);
  ez_after : session RA amd u (l ++ [Solve RA]) = Ok (codes ++ [0], q);
  ez_new : last codes 3 <> 0 \/ IterationCount (q_stats q) < IterationCount (q_stats q0) + maxit (q_options q0)
}.

Section Codes.
Variables (amd : amd_t) (u : user R) (l : list (call RA)) (codes : list Z) (q0 q : qp R).
Hypothesis V : valid_user amd u.
Hypothesis HZ : earned_zero amd u l codes q0 q.
Notation o := (q_options q0).
Notation Q := (user_qp u).

(** C14: the returned point passes the test with the tolerances that were set before the call. *)
Theorem C14_any_solve : passes Q (reltol o) (abstol o) (hx q) (hy q) (hz q) (hs q).
Proof.
  destruct HZ as [Hq E1 E2 Hn].
  destruct (C20_any_solve RA Rpos amd u l Safe_R V Hq) as [cs [qa [c [qb [E1' [E2' [Hf [_ H]]]]]]]].
  rewrite E1 in E1'. injection E1' as <- <-. rewrite E2 in E2'. injection E2' as Ec <-. apply app_inj_tail in Ec. destruct Ec as [_ <-].
  destruct H as [[H1 _]|[Hk Hc]].
  - destruct (session_from RA Rpos Safe_R amd u V) as [qs [B [r [E0 [HS HF]]]]].
    destruct (HF _ Hq) as [q3 [E3 [HA Hi]]]. rewrite E2 in E3. injection E3 as _ <-.
    apply (passes_handle amd u B qs r V HS q _ o (Pt_is _ _ _ (at_pt _ _ _ _ HA))).
    apply (test_at_iff RA Rpos Safe_R B q _ o HA Hi). exact H1.
  - exfalso. cbn [car RA] in *. rewrite Hf in Hc. destruct (_ =? _) in Hc; [discriminate Hc|]. destruct Hn as [Hn|Hn]; [congruence|lia].
Qed.

Lemma earned_interior : interior_vars Q (vars_of q).
Proof.
  destruct HZ as [Hq _ E _]. destruct (C12_always_interior amd u _ V Hq) as [codes' [q' [E' H]]]. rewrite E in E'. injection E' as _ <-.
  intros i Hi. apply H. destruct (user_dims u) as [_ [Em _]]. rewrite Em in Hi. exact Hi.
Qed.
Lemma earned_s i : (0 <= i < dm Q)%Z -> (0 <= hs q i)%R.
Proof. intros Hi. destruct (earned_interior i Hi) as [H _]. cbn [vars_of vs] in H. lra. Qed.
Lemma earned_z i : (0 <= i < dm Q)%Z -> (0 <= hz q i)%R.
Proof. intros Hi. destruct (earned_interior i Hi) as [_ H]. cbn [vars_of vz] in H. lra. Qed.

(** C15: distance to the optimal value. *)
Theorem C15_any_solve x' : symmetric Q -> psd_on Q -> feasible Q x' ->
  (objective Q (hx q) - objective Q x' <
    reltol o / sqrt 3 * (Euclid (fun i => x' i - hx q i) (dn Q) + (if dp Q =? 0 then 0 else Euclid (hy q) (dp Q)) + Euclid (hz q) (dm Q)) +
    IZR (dm Q) * abstol o)%R.
Proof.
  intros HS HC HF. apply passes_near_optimal with (s := hs q); auto using earned_z, C14_any_solve. apply (dims_nonneg amd u V).
Qed.

(** C16: violation of every constraint. *)
Theorem C16_any_solve :
  (forall i, (0 <= i < dm Q)%Z -> Sum (dn Q) (fun j => dG Q i j * hx q j) < dh Q i + reltol o / sqrt 3)%R /\
  (forall k, (0 <= k < dp Q)%Z -> Rabs (Sum (dn Q) (fun j => dA Q k j * hx q j) - db Q k) < reltol o / sqrt 3)%R.
Proof. exact (passes_feasible Q (reltol o) (abstol o) (hx q) (hy q) (hz q) (hs q) earned_s C14_any_solve). Qed.

(** C45: infeasible problems. *)
Theorem C45_any_solve y z : infeasibility_certificate Q y z ->
  (- certificate_value Q y z <= reltol o / sqrt 3 * (Euclid z (dm Q) + (if dp Q =? 0 then 0 else Euclid y (dp Q))))%R.
Proof. apply (passes_certificate Q (reltol o) (abstol o) (hx q) (hy q) (hz q) (hs q)); auto using earned_s, C14_any_solve. Qed.

(** C46: unbounded problems. *)
Theorem C46_any_solve d : symmetric Q -> unbounded_direction Q d ->
  (- Sum (dn Q) (fun j => dc Q j * d j) <= reltol o / sqrt 3 * Euclid d (dn Q))%R.
Proof. intros HS. apply (passes_unbounded Q (reltol o) (abstol o) (hx q) (hy q) (hz q) (hs q)); auto using earned_z, C14_any_solve. Qed.

(** C78: where the solutions are. *)
Theorem C78_any_solve x0 y0 z0 : kkt_point Q x0 y0 z0 ->
  near_solution Q (hx q) (hy q) (hz q) (hs q) x0 y0 z0
    (reltol o / sqrt 3) (if u_pe u =? 0 then 0 else reltol o / sqrt 3)%R (reltol o / sqrt 3) (IZR (u_m u) * abstol o).
Proof.
  intros K. destruct (user_dims u) as [D1 [D2 D3]].
  destruct C14_any_solve as [T1 [T2 [T3 T4]]]. cbn [car RA] in *.
  apply near_solution_ok; auto using earned_s, earned_z.
  - left. exact T1.
  - rewrite <- D3. destruct (Z.eqb_spec (dp (user_qp u)) 0) as [E0|E0]; [|left; apply T3; exact E0].
    rewrite E0. unfold Euclid, Sum. rewrite zr_nil by lia. cbn [sumr]. rewrite sqrt_0. lra.
  - left. exact T2.
  - left. rewrite <- D2. assert (Hm : (0 < IZR (dm (user_qp u)))%R) by (apply (IZR_lt 0); pose proof (vu_m _ _ V); cbn [car RA] in *; lia).
    unfold gap in T4. apply (Rmult_lt_compat_l _ _ _ Hm) in T4.
    match goal with |- (?a < _)%R => replace a with (IZR (dm (user_qp u)) * (a / IZR (dm (user_qp u))))%R by (field; lra) end. exact T4.
Qed.
End Codes.
Print Assumptions C14_any_solve.
Print Assumptions C15_any_solve.
Print Assumptions C16_any_solve.
Print Assumptions C45_any_solve.
Print Assumptions C46_any_solve.
Print Assumptions C78_any_solve.

(** Case: minimise x^2/2 subject to x >= 1.  The first solve may make no iteration and returns 2; then the tolerances are
    relaxed and the second solve returns 0. *)
Definition idle : settings R := (default_settings RA) <| maxit := 0 |>.
Definition calls14 : list (call RA) := [SetOptions RA idle; Solve RA; SetOptions RA lenient].

Lemma walk_same B j s s' : sn_pt RA s = sn_pt RA s' -> sn_o RA s = sn_o RA s' ->
  sn_pt RA (walk RA B j s) = sn_pt RA (walk RA B j s') /\ sn_o RA (walk RA B j s) = sn_o RA (walk RA B j s').
Proof. intros H1 H2. induction j; cbn [walk]; [auto|]. destruct IHj as [E1 E2]. cbn [sn_pt sn_o]. rewrite E1, E2. auto. Qed.

Lemma C14_any_case amd : exists q0 q, valid_user amd natural /\ earned_zero amd natural calls14 [2] q0 q.
Proof.
  destruct (C15_C16_case amd) as [q1 [V [Hq1 E1]]].
  destruct (session_from RA Rpos Safe_R amd natural V) as [qs [B [r [E0 [HS HF]]]]].
  assert (Hq : quiet_calls RA natural (calls14 ++ [Solve RA])).
  { right. intros o' [E|[E|[E|[E|[]]]]]; try discriminate E; injection E as <-; cbn; lia. }
  destruct (HF _ Hq1) as [q1' [E1' _]]. rewrite E1 in E1'. injection E1' as Ef _. cbn [callsF fst snd] in Ef.
  destruct (HF _ (quiet_prefix _ _ _ _ Hq)) as [q0 [F0 [A0 _]]]. destruct (HF _ Hq) as [q [F1 [A1 _]]].
  set (s := set_o RA (fresh RA B r) lenient) in *.
  set (s0 := solveF RA B (set_o RA (fresh RA B r) idle)).
  assert (S0 : s0 = mkSnap RA (initF RA B) idle (((initial_stats RA) <| AMD_RESULT := r |>) <| Flag := QP_MAXIT |>)) by reflexivity.
  set (s1 := set_o RA s0 lenient).
  assert (Fl : Flag (sn_st RA (solveF RA B s1)) = 0).
  { destruct (solveF_fresh RA B s eq_refl) as [[_ [_ Es]]|[[j [Hj [St _]]]|[Hm _]]]; [rewrite Es in Ef; discriminate Ef| |cbn in Hm; lia].
    destruct (walk_same B j s s1 eq_refl eq_refl) as [W1 W2].
    assert (St1 : stops RA B (walk RA B j s1) = true) by (unfold stops in *; rewrite <- W1, <- W2; exact St).
    destruct (solveF_fresh RA B s1 eq_refl) as [[_ [No _]]|[[j' [_ [_ [_ Es]]]]|[Hm _]]]; [|rewrite Es; reflexivity|cbn in Hm; lia].
    change (maxit (sn_o RA s1)) with (maxit (sn_o RA s)) in No. rewrite (No j Hj) in St1. discriminate St1. }
  exists q0, q. split; [exact V|]. split; [exact Hq|exact F0| |left; discriminate].
  rewrite F1. cbn [calls14 app callsF fst snd]. change (solveF RA B (set_o RA (fresh RA B r) idle)) with s0. fold s1. rewrite Fl, S0. reflexivity.
Qed.
