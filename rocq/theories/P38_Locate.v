(** C78: how far the point returned with exit code 0 is from a solution of the problem, and what it says about which
    constraints are active there. *)
From Coq Require Import ZArith Reals List Lia Lra Bool.
From RecordUpdate Require Import RecordUpdate.
From Flocq Require Import Core BinarySingleNaN.
From Verif Require Import Res Arith Lists MSparse Csc SemVec MSolver Iter SafeInst Session Spec SpecLink QpSpec Api Demo P2_Kkt PointR P5_Session P6_Codes StepSpec StepFacts StepLink P7_Step
  P8_Problem P8_Cases Round P14_Round P22_RoundCodes.
Import ListNotations.
Open Scope Z_scope.

(** ** Specification *)

(** The optimality conditions: primal and dual feasibility and complementarity. *)
Record kkt_point (Q : QPdata) (x y z : Z -> R) : Prop := mkKktPoint {
  kp_dual : forall j, 0 <= j < dn Q -> res_dual Q x y z j = 0%R;
  kp_feas : feasible Q x;
  kp_sign : forall i, 0 <= i < dm Q -> (0 <= z i)%R;
  kp_comp : forall i, 0 <= i < dm Q -> (z i * (dh Q i - Sum (dn Q) (fun j => dG Q i j * x j)) = 0)%R
}.

(** The slack of an inequality. *)
Definition slack (Q : QPdata) (x : Z -> R) (i : Z) : R := (dh Q i - Sum (dn Q) (fun j => dG Q i j * x j))%R.
(** The quadratic form of P. *)
Definition form (Q : QPdata) (d : Z -> R) : R := Sum (dn Q) (fun i => d i * Sum (dn Q) (fun j => dP Q i j * d j))%R.
Definition strongly_convex (lam : R) (Q : QPdata) : Prop := forall d, (lam * Sum (dn Q) (fun i => d i * d i) <= form Q d)%R.

Open Scope R_scope.
Definition dist (k : Z) (a b : Z -> R) : R := Euclid (fun i => a i - b i) k.

(** ** The estimate *)

Section Estimate.
Variable Q : QPdata.
Notation n := (dn Q). Notation m := (dm Q). Notation p := (dp Q).

(** Such a point is a minimiser of a convex problem. *)
Lemma kkt_minimiser x y z x' : symmetric Q -> psd_on Q -> kkt_point Q x y z -> feasible Q x' -> objective Q x <= objective Q x'.
Proof.
  intros Hs Hp [K1 [K2 K2'] K3 K4] Hf. pose proof (weak_duality Q Hs Hp x y z (slack Q x) x' Hf K3) as W.
  rewrite (Sum_zero n) in W by (intros j Hj; rewrite K1 by auto; ring).
  rewrite (Sum_zero p) in W by (intros j Hj; rewrite K2 by auto; ring).
  rewrite (Sum_zero m (fun i => z i * res_in Q x (slack Q x) i)) in W by (intros i Hi; unfold res_in, slack; ring).
  rewrite (Sum_zero m) in W by (intros i Hi; rewrite Rmult_comm; apply K4; auto). lra.
Qed.

Lemma adjoint (M : Z -> Z -> R) k u v : Sum n (fun j => Sum k (fun i => M i j * u i) * v j) = Sum k (fun i => u i * Sum n (fun j => M i j * v j)).
Proof.
  rewrite (Sum_ext n _ (fun j => Sum k (fun i => u i * (M i j * v j)))).
  2:{ intros j Hj. rewrite <- Sum_scal_r. apply Sum_ext. intros; ring. }
  rewrite Sum_swap. apply Sum_ext. intros. apply Sum_scal.
Qed.

Lemma apply_diff (M : Z -> Z -> R) a b i : Sum n (fun j => M i j * (a j - b j)) = Sum n (fun j => M i j * a j) - Sum n (fun j => M i j * b j).
Proof. rewrite <- Sum_minus. apply Sum_ext. intros; ring. Qed.

(** An identity between any point and a solution. *)
Lemma perturbation x y z s x0 y0 z0 : kkt_point Q x0 y0 z0 ->
  form Q (fun i => x i - x0 i) + Sum m (fun i => slack Q x0 i * z i) + Sum m (fun i => s i * z0 i) =
  - Sum n (fun j => res_dual Q x y z j * (x j - x0 j)) + Sum p (fun i => (y i - y0 i) * res_eq Q x i)
  + Sum m (fun i => (z i - z0 i) * res_in Q x s i) + Sum m (fun i => s i * z i).
Proof.
  intros [K1 [K2 K2'] K3 K4]. unfold form.
  assert (E1 : Sum n (fun i => (x i - x0 i) * Sum n (fun j => dP Q i j * (x j - x0 j))) =
     - Sum n (fun j => res_dual Q x y z j * (x j - x0 j)) - Sum m (fun i => (z i - z0 i) * Sum n (fun j => dG Q i j * (x j - x0 j)))
     - Sum p (fun i => (y i - y0 i) * Sum n (fun j => dA Q i j * (x j - x0 j)))).
  { rewrite <- (adjoint (dG Q) m), <- (adjoint (dA Q) p), <- Sum_opp, <- !Sum_minus. apply Sum_ext. intros j Hj.
    specialize (K1 j Hj). rewrite (apply_diff (dP Q)).
    assert (EG : Sum m (fun i => dG Q i j * (z i - z0 i)) = Sum m (fun i => dG Q i j * z i) - Sum m (fun i => dG Q i j * z0 i))
      by (rewrite <- Sum_minus; apply Sum_ext; intros; ring).
    assert (EA : Sum p (fun i => dA Q i j * (y i - y0 i)) = Sum p (fun i => dA Q i j * y i) - Sum p (fun i => dA Q i j * y0 i))
      by (rewrite <- Sum_minus; apply Sum_ext; intros; ring).
    rewrite EG, EA. unfold res_dual in *. set (a := Sum n (fun k => dP Q j k * x k)) in *. set (b := Sum n (fun k => dP Q j k * x0 k)) in *.
    set (c := Sum m (fun i => dG Q i j * z i)) in *. set (d := Sum m (fun i => dG Q i j * z0 i)) in *.
    set (e := Sum p (fun i => dA Q i j * y i)) in *. set (g := Sum p (fun i => dA Q i j * y0 i)) in *.
    replace b with (- d - g - dc Q j) by lra. ring. }
  assert (E2 : Sum p (fun i => (y i - y0 i) * Sum n (fun j => dA Q i j * (x j - x0 j))) = - Sum p (fun i => (y i - y0 i) * res_eq Q x i)).
  { rewrite <- Sum_opp. apply Sum_ext. intros i Hi. specialize (K2 i Hi). rewrite apply_diff. unfold res_eq in *.
    replace (Sum n (fun j => dA Q i j * x0 j)) with (db Q i) by lra. ring. }
  assert (E3 : Sum m (fun i => (z i - z0 i) * Sum n (fun j => dG Q i j * (x j - x0 j))) =
     Sum m (fun i => slack Q x0 i * z i) + Sum m (fun i => s i * z0 i) - Sum m (fun i => (z i - z0 i) * res_in Q x s i) - Sum m (fun i => s i * z i)).
  { rewrite <- Sum_plus, <- !Sum_minus. apply Sum_ext. intros i Hi. specialize (K4 i Hi). rewrite apply_diff. unfold res_in, slack in *.
    set (a := Sum n (fun j => dG Q i j * x j)) in *. set (b := Sum n (fun j => dG Q i j * x0 j)) in *. nra. }
  rewrite E1, E2, E3. ring.
Qed.

Lemma cauchy_le k u v e : Euclid v k <= e -> Sum k (fun i => u i * v i) <= e * Euclid u k.
Proof.
  intros H. eapply Rle_trans; [apply Rle_abs|]. eapply Rle_trans; [apply (Cauchy k u v)|]. rewrite Rmult_comm.
  apply Rmult_le_compat_r; [apply Euclid_nonneg|exact H].
Qed.

Lemma distance x y z s x0 y0 z0 ed ee ei : kkt_point Q x0 y0 z0 ->
  Euclid (res_dual Q x y z) n <= ed -> Euclid (res_eq Q x) p <= ee -> Euclid (res_in Q x s) m <= ei ->
  form Q (fun i => x i - x0 i) + Sum m (fun i => slack Q x0 i * z i) + Sum m (fun i => s i * z0 i) <=
  ed * dist n x x0 + ee * dist p y y0 + ei * dist m z z0 + Sum m (fun i => s i * z i).
Proof.
  intros K H1 H2 H3. rewrite (perturbation x y z s x0 y0 z0 K). unfold dist.
  pose proof (cauchy_le p (fun i => y i - y0 i) (res_eq Q x) ee H2) as G2.
  pose proof (cauchy_le m (fun i => z i - z0 i) (res_in Q x s) ei H3) as G3.
  assert (G1 : - Sum n (fun j => res_dual Q x y z j * (x j - x0 j)) <= ed * Euclid (fun i => x i - x0 i) n).
  { rewrite <- Sum_opp. rewrite (Sum_ext n _ (fun j => (x j - x0 j) * (- res_dual Q x y z j))) by (intros; ring).
    apply cauchy_le. rewrite (Euclid_ext _ (fun j => (-1) * res_dual Q x y z j)) by (intros; ring).
    rewrite Euclid_scal. replace (Rabs (-1)) with 1; [lra|]. unfold Rabs. destruct (Rcase_abs (-1)); lra. }
  cbv beta in *. lra.
Qed.

(** What the estimate gives. *)
Definition near_solution (x y z s x0 y0 z0 : Z -> R) (ed ee ei g : R) : Prop :=
  let T := ed * dist n x x0 + ee * dist p y y0 + ei * dist m z z0 + g in
  (psd_on Q -> form Q (fun i => x i - x0 i) <= T /\
     (forall i, (0 <= i < m)%Z -> s i * z0 i <= T /\ slack Q x0 i * z i <= T)) /\
  (forall lam, 0 < lam -> strongly_convex lam Q ->
     dist n x x0 <= ed / lam + sqrt ((ee * dist p y y0 + ei * dist m z z0 + g) / lam)).

Lemma quadratic lam d e E : 0 < lam -> 0 <= e -> 0 <= E -> 0 <= d -> lam * (d * d) <= e * d + E -> d <= e / lam + sqrt (E / lam).
Proof.
  intros Hl He HE Hd H. set (t := d - e / lam). assert (Ht : d = t + e / lam) by (unfold t; ring).
  assert (0 <= e / lam) by (apply Rmult_le_pos; [auto|left; apply Rinv_0_lt_compat; auto]).
  destruct (Rle_lt_dec t 0) as [L|L]; [pose proof (sqrt_pos (E / lam)); lra|].
  assert (X : t <= sqrt (E / lam)); [|lra]. rewrite <- (sqrt_square t) by lra. apply sqrt_le_1_alt.
  apply (Rmult_le_reg_l lam); auto. replace (lam * (E / lam)) with E by (field; lra).
  assert (X : lam * (d * d) - e * d = lam * (t * t) + e * t) by (unfold t; field; lra).
  assert (0 <= e * t) by (apply Rmult_le_pos; lra). lra.
Qed.

Lemma near_solution_ok x y z s x0 y0 z0 ed ee ei g : kkt_point Q x0 y0 z0 ->
  (forall i, (0 <= i < m)%Z -> 0 <= s i) -> (forall i, (0 <= i < m)%Z -> 0 <= z i) ->
  Euclid (res_dual Q x y z) n <= ed -> Euclid (res_eq Q x) p <= ee -> Euclid (res_in Q x s) m <= ei -> Sum m (fun i => s i * z i) <= g ->
  near_solution x y z s x0 y0 z0 ed ee ei g.
Proof.
  intros K Hs Hz H1 H2 H3 H4. pose proof (distance x y z s x0 y0 z0 ed ee ei K H1 H2 H3) as D. destruct K as [_ [_ K2] K3 _].
  assert (P1 : forall i, (0 <= i < m)%Z -> 0 <= slack Q x0 i * z i).
  { intros i Hi. apply Rmult_le_pos; auto. specialize (K2 i Hi). unfold slack. lra. }
  assert (P2 : forall i, (0 <= i < m)%Z -> 0 <= s i * z0 i) by (intros i Hi; apply Rmult_le_pos; auto).
  pose proof (Sum_nonneg m _ P1) as S1. pose proof (Sum_nonneg m _ P2) as S2. unfold near_solution. cbv zeta. split.
  - intros Hp. assert (X : 0 <= form Q (fun i => x i - x0 i)) by exact (Hp (fun i => x i - x0 i)). split; [lra|].
    intros i Hi. pose proof (Sum_ge_term m _ i P1 Hi). pose proof (Sum_ge_term m _ i P2 Hi). cbv beta in *. split; lra.
  - intros lam Hl Hc. specialize (Hc (fun i => x i - x0 i)).
    assert (X0 : 0 <= Euclid (res_dual Q x y z) n) by apply Euclid_nonneg. assert (X1 : 0 <= Euclid (res_eq Q x) p) by apply Euclid_nonneg.
    assert (X2 : 0 <= Euclid (res_in Q x s) m) by apply Euclid_nonneg.
    assert (Hg : 0 <= g). { eapply Rle_trans; [|exact H4]. apply Sum_nonneg. intros i Hi. apply Rmult_le_pos; auto. }
    apply quadratic; auto; try lra.
    + assert (0 <= ee * dist p y y0) by (apply Rmult_le_pos; [lra|apply Euclid_nonneg]).
      assert (0 <= ei * dist m z z0) by (apply Rmult_le_pos; [lra|apply Euclid_nonneg]). lra.
    + apply Euclid_nonneg.
    + unfold dist at 1 2. rewrite Euclid_sq. cbv beta in Hc. lra.
Qed.
End Estimate.
Open Scope Z_scope.

(** ** Theorems *)

(** Exact arithmetic, first solve. *)
Theorem C78_exact amd (u : user R) o q x0 y0 z0 : valid_user amd u -> quiet_calls RA u [SetOptions RA o; Solve RA] ->
  session RA amd u [SetOptions RA o; Solve RA] = Ok ([0], q) -> kkt_point (user_qp u) x0 y0 z0 ->
  near_solution (user_qp u) (hx q) (hy q) (hz q) (hs q) x0 y0 z0
    (reltol o / sqrt 3) (if u_pe u =? 0 then 0 else reltol o / sqrt 3)%R (reltol o / sqrt 3) (IZR (u_m u) * abstol o).
Proof.
  intros V Hq E K. destruct (user_dims u) as [D1 [D2 D3]]. pose proof (exit_interior amd u o q V Hq E) as HI.
  destruct (C14_optimal_exact amd u o q V Hq E) as [T1 [T2 [T3 T4]]]. cbn [car RA] in *.
  apply near_solution_ok; auto.
  - intros i Hi. destruct (HI i Hi) as [H _]. cbn [vars_of vs] in H. lra.
  - intros i Hi. destruct (HI i Hi) as [_ H]. cbn [vars_of vz] in H. lra.
  - left. exact T1.
  - rewrite <- D3. destruct (Z.eqb_spec (dp (user_qp u)) 0) as [E0|E0]; [|left; apply T3; exact E0].
    rewrite E0. unfold Euclid, Sum. rewrite zr_nil by lia. cbn [sumr]. rewrite sqrt_0. lra.
  - left. exact T2.
  - left. rewrite <- D2. assert (Hm : (0 < IZR (dm (user_qp u)))%R) by (apply (IZR_lt 0); pose proof (vu_m _ _ V); cbn [car RA] in *; lia).
    unfold gap in T4. apply (Rmult_lt_compat_l _ _ _ Hm) in T4.
    match goal with |- (?a < _)%R => replace a with (IZR (dm (user_qp u)) * (a / IZR (dm (user_qp u))))%R by (field; lra) end. exact T4.
Qed.

(** In particular: how far the returned x is from the minimiser of a strongly convex problem. *)
Theorem C78_distance amd (u : user R) o q lam x0 y0 z0 : valid_user amd u -> quiet_calls RA u [SetOptions RA o; Solve RA] ->
  session RA amd u [SetOptions RA o; Solve RA] = Ok ([0], q) -> kkt_point (user_qp u) x0 y0 z0 -> (0 < lam)%R -> strongly_convex lam (user_qp u) ->
  let rho := (reltol o / sqrt 3)%R in
  (dist (u_n u) (hx q) x0 <= rho / lam + sqrt ((rho * (dist (u_pe u) (hy q) y0 + dist (u_m u) (hz q) z0) + IZR (u_m u) * abstol o) / lam))%R.
Proof.
  intros V Hq E K Hl Hc rho. destruct (C78_exact amd u o q x0 y0 z0 V Hq E K) as [_ H]. specialize (H lam Hl Hc).
  destruct (user_dims u) as [D1 [D2 D3]]. cbn [car RA] in *. rewrite D1, D2, D3 in H. fold rho in H.
  match goal with |- (_ <= _ + sqrt ?a)%R => match type of H with (_ <= _ + sqrt ?b)%R => replace a with b; [exact H|] end end.
  f_equal. destruct (Z.eqb_spec (u_pe u) 0) as [E0|E0]; [|ring]. cbn [car RA] in *. rewrite E0. unfold dist at 1 3. unfold Euclid, Sum.
  rewrite zr_nil by lia. cbn [sumr]. rewrite sqrt_0. ring.
Qed.

(** In binary64, for every call that returns 0 when the one before it did not: the problem is the one the doubles denote
    exactly, the errors are those of C62. *)
Theorem C78_binary64 amd u l codes q0 q x0 y0 z0 : valid_user amd u -> new_zero amd u l codes q0 q -> operations u <= 2 ^ 51 ->
  is_finite (reltol (q_options q0)) = true -> is_finite (abstol (q_options q0)) = true ->
  nonneg_vec (q_s q) (u_m u) -> nonneg_vec (q_z q) (u_m u) -> kkt_point (exact_qp u) x0 y0 z0 ->
  let o := q_options q0 in let W := size_qp u in let t := met u (B2R (reltol o)) in
  let x := vec_of (q_x q) in let y := vec_of (q_y q) in let z := vec_of (q_z q) in let s := vec_of (q_s q) in
  near_solution (exact_qp u) x y z s x0 y0 z0
    (t + gam u * Euclid (w_dual W x y z) (u_n u))%R
    (if u_pe u =? 0 then 0 else t + gam u * Euclid (w_eq W x) (u_pe u))%R
    (t + gam u * Euclid (w_in W x s) (u_m u))%R
    (IZR (u_m u) * (B2R (abstol o) + bpow radix2 (-510)) + gam u * Sum (u_m u) (fun i => s i * z i))%R.
Proof.
  intros V HZ HK Fr Fa Ns Nz K o W t x y z s. destruct (exact_dims u) as [D1 [D2 D3]].
  destruct (zero_says amd u l codes q0 q V HZ HK Fr Fa) as [_ [_ [_ [[K1 K2 K3] [_ [mu [_ [M1 M2]]]]]]]].
  specialize (M2 (M1 Ns Nz)). fold x y z s o W t in K1, K2, K3, M2. change (car FA) with b64 in *. fold t in K1, K2, K3.
  rewrite D1 in K1. rewrite D2 in K2. rewrite D3 in K3.
  assert (Ps : forall i, 0 <= i < u_m u -> (0 <= s i)%R) by (intros i Hi; apply (nonneg_entry _ (u_m u)); auto).
  assert (Pz : forall i, 0 <= i < u_m u -> (0 <= z i)%R) by (intros i Hi; apply (nonneg_entry _ (u_m u)); auto).
  apply near_solution_ok; auto.
  - rewrite D2. exact Ps.
  - rewrite D2. exact Pz.
  - rewrite D1. exact K1.
  - rewrite D3. destruct (Z.eqb_spec (u_pe u) 0) as [E0|E0]; [|apply K3; exact E0].
    rewrite E0. unfold Euclid, Sum. rewrite zr_nil by lia. cbn [sumr]. rewrite sqrt_0. lra.
  - rewrite D2. exact K2.
  - rewrite D2. pose proof (vu_m _ _ V) as Vm. unfold gap in M2. rewrite D2 in M2.
    rewrite (Sum_ext (u_m u) (fun i => (Rabs (s i) * Rabs (z i))%R) (fun i => (s i * z i)%R)) in M2
        by (intros i Hi; rewrite !Rabs_pos_eq by auto; reflexivity).
    set (S0 := Sum (u_m u) (fun i => (s i * z i)%R)) in *. assert (Im : (1 <= IZR (u_m u))%R) by (apply IZR_le; lia).
    apply (Rmult_lt_compat_l (IZR (u_m u))) in M2; [|lra].
    replace (IZR (u_m u) * (S0 / IZR (u_m u)))%R with S0 in M2 by (field; lra).
    replace (IZR (u_m u) * (B2R (abstol o) + gam u * (S0 / IZR (u_m u)) + bpow radix2 (-510)))%R
      with (IZR (u_m u) * (B2R (abstol o) + bpow radix2 (-510)) + gam u * S0)%R in M2 by (field; lra). lra.
Qed.

(** The conditions characterise solutions: for a convex problem such a point is a minimiser. *)
Theorem C78_is_solution Q x y z : symmetric Q -> psd_on Q -> kkt_point Q x y z ->
  feasible Q x /\ forall x', feasible Q x' -> (objective Q x <= objective Q x')%R.
Proof. intros Hs Hp K. split; [apply (kp_feas _ _ _ _ K)|]. intros x' Hf. apply (kkt_minimiser Q x y z x' Hs Hp K Hf). Qed.

(** Case: minimise x^2/2 subject to x >= 1, with solution x = 1 and multiplier 1, strongly convex with modulus 1. *)
Lemma C78_case amd : exists q, valid_user amd natural /\ quiet_calls RA natural [SetOptions RA lenient; Solve RA] /\
  session RA amd natural [SetOptions RA lenient; Solve RA] = Ok ([0], q) /\
  kkt_point (user_qp natural) (fun _ => 1%R) (fun _ => 0%R) (fun _ => 1%R) /\ strongly_convex 1 (user_qp natural).
Proof.
  destruct (C15_C16_case amd) as [q [H1 [H2 H3]]]. exists q. split; [exact H1|]. split; [exact H2|]. split; [exact H3|]. split.
  - split.
    + intros j Hj. change (dn Qs) with 1 in *. enum j. unfold res_dual. change (dn Qs) with 1. change (dm Qs) with 1. change (dp Qs) with 0.
      rewrite !Sum1, Sum0, Qs_P, Qs_G, Qs_c. ring.
    + split.
      * intros i Hi. change (dp Qs) with 0 in Hi. lia.
      * intros i Hi. change (dm Qs) with 1 in *. enum i. change (dn Qs) with 1. rewrite Sum1, Qs_G, Qs_h. lra.
    + intros. lra.
    + intros i Hi. change (dm Qs) with 1 in *. enum i. change (dn Qs) with 1. rewrite Sum1, Qs_G, Qs_h. ring.
  - intros d. unfold form. change (dn Qs) with 1. rewrite !Sum1, Qs_P. lra.
Qed.

Print Assumptions C78_exact.
Print Assumptions C78_distance.
Print Assumptions C78_binary64.
Print Assumptions C78_is_solution.
