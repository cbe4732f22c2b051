(** C83: exit code 0 without convexity or symmetry: the returned point is nearly stationary, and no more than that. *)
From Coq Require Import ZArith Reals List Lia Lra Bool.
From RecordUpdate Require Import RecordUpdate.
From Flocq Require Import Core BinarySingleNaN.
From Verif Require Import Res Partial Arith Lists MSparse Csc SemVec Flat TransposeProofs KktProofs MLdl LdlSym LdlNum LdlR
  LdlFun MSolver VecOps Iter SafeInst Setup Session Spec SpecLink QpSpec NewtonR PointR Api P2_Kkt P4_Always P5_Session P6_Codes Demo
  StepSpec StepFacts StepLink P7_Step QpFacts P8_Problem P8_Cases Round P14_Round P22_RoundCodes P38_Locate P40_Exact.
Import ListNotations.
Open Scope Z_scope.

(** ** Specification *)
Section Spec.
Variable Q : QPdata.
Notation n := (dn Q). Notation m := (dm Q). Notation p := (dp Q).
Open Scope R_scope.

(** (P x + c)'(x' - x).  For symmetric P this is the derivative of the objective at [x] towards [x']. *)
Definition slope (x x' : Z -> R) : R := Sum n (fun j => (Sum n (fun k => dP Q j k * x k) + dc Q j) * (x' j - x j)).
(** d'P d. *)
Definition curvature (d : Z -> R) : R := Sum n (fun i => d i * Sum n (fun j => dP Q i j * d j)).

(** What the objective does between two points. *)
Lemma objective_between x x' : symmetric Q -> objective Q x' = objective Q x + slope x x' + 1 / 2 * curvature (fun i => x' i - x i).
Proof.
  intros HS. unfold objective, slope, curvature.
  assert (SP : forall u v, Sum n (fun i => u i * Sum n (fun j => dP Q i j * v j)) = Sum n (fun i => v i * Sum n (fun j => dP Q i j * u j))).
  { intros u v. rewrite (Sum_ext n _ (fun i => Sum n (fun j => v j * (dP Q j i * u i)))).
    2:{ intros i Hi. rewrite <- Sum_scal. apply Sum_ext. intros j Hj. rewrite (HS i j) by auto. ring. }
    rewrite Sum_swap. apply Sum_ext. intros. apply Sum_scal. }
  assert (LN : forall i, Sum n (fun j => dP Q i j * (x' j - x j)) = Sum n (fun j => dP Q i j * x' j) - Sum n (fun j => dP Q i j * x j)).
  { intros i. rewrite <- Sum_minus. apply Sum_ext. intros; ring. }
  rewrite (Sum_ext n (fun i => (x' i - x i) * Sum n (fun j => dP Q i j * (x' j - x j)))
    (fun i => (x' i * Sum n (fun j => dP Q i j * x' j) - x' i * Sum n (fun j => dP Q i j * x j)) - (x i * Sum n (fun j => dP Q i j * x' j) - x i * Sum n (fun j => dP Q i j * x j))))
    by (intros i Hi; rewrite LN; ring).
  rewrite !Sum_minus, (SP x x').
  rewrite (Sum_ext n (fun j => (Sum n (fun k => dP Q j k * x k) + dc Q j) * (x' j - x j))
    (fun j => (x' j * Sum n (fun k => dP Q j k * x k) - x j * Sum n (fun k => dP Q j k * x k)) + (dc Q j * x' j - dc Q j * x j))) by (intros; ring).
  rewrite Sum_plus, !Sum_minus. lra.
Qed.

(** Small residuals bound the slope towards every feasible point. *)
Lemma slope_bound x y z s x' ed ee ei g : (forall i, (0 <= i < m)%Z -> 0 <= z i) ->
  Euclid (res_dual Q x y z) n <= ed -> Euclid (res_eq Q x) p <= ee -> Euclid (res_in Q x s) m <= ei -> Sum m (fun i => s i * z i) <= g -> feasible Q x' ->
  - slope x x' <= ed * Euclid (fun i => x' i - x i) n + ee * Euclid y p + ei * Euclid z m + g.
Proof.
  intros Hz H1 H2 H3 H4 [Fe Fi]. set (d := fun i => x' i - x i).
  assert (E : - slope x x' = Sum n (fun j => res_dual Q x y z j * d j) + Sum m (fun i => z i * Sum n (fun j => dG Q i j * d j)) + Sum p (fun i => y i * Sum n (fun j => dA Q i j * d j))).
  { rewrite <- transpose_G, <- transpose_A, <- !Sum_plus. unfold slope. rewrite <- Sum_opp. apply Sum_ext. intros j Hj. unfold res_dual, d. ring. }
  assert (LG : forall i, Sum n (fun j => dG Q i j * d j) = Sum n (fun j => dG Q i j * x' j) - Sum n (fun j => dG Q i j * x j)).
  { intros i. rewrite <- Sum_minus. apply Sum_ext. intros; unfold d; ring. }
  assert (LA : forall i, Sum n (fun j => dA Q i j * d j) = Sum n (fun j => dA Q i j * x' j) - Sum n (fun j => dA Q i j * x j)).
  { intros i. rewrite <- Sum_minus. apply Sum_ext. intros; unfold d; ring. }
  assert (A2 : Sum m (fun i => z i * Sum n (fun j => dG Q i j * d j)) <= Sum m (fun i => z i * res_in Q x s i) + Sum m (fun i => s i * z i)).
  { rewrite <- Sum_plus. apply Sum_le. intros i Hi. rewrite LG. pose proof (Fi i Hi).
    replace (z i * res_in Q x s i + s i * z i) with (z i * (dh Q i - Sum n (fun j => dG Q i j * x j))) by (unfold res_in; ring).
    apply Rmult_le_compat_l; auto. lra. }
  assert (A3 : Sum p (fun i => y i * Sum n (fun j => dA Q i j * d j)) = Sum p (fun i => y i * res_eq Q x i)).
  { apply Sum_ext. intros i Hi. rewrite LA. pose proof (Fe i Hi) as F. unfold res_eq in *. f_equal. lra. }
  assert (C : forall k (f h : Z -> R) e, Euclid h k <= e -> Sum k (fun i => f i * h i) <= e * Euclid f k).
  { intros k f h e He. eapply Rle_trans; [apply Rle_abs|]. eapply Rle_trans; [apply (Cauchy k f h)|]. rewrite Rmult_comm. apply Rmult_le_compat_r; [apply Euclid_nonneg|exact He]. }
  assert (B1 : Sum n (fun j => res_dual Q x y z j * d j) <= ed * Euclid d n).
  { rewrite (Sum_ext n _ (fun j => d j * res_dual Q x y z j)) by (intros; ring). apply C. exact H1. }
  pose proof (C p y (res_eq Q x) ee H2). pose proof (C m z (res_in Q x s) ei H3). lra.
Qed.
End Spec.

(** ** C83 *)
Section Exact.
Variables (amd : amd_t) (u : user R) (l : list (call RA)) (codes : list Z) (q0 q : qp R).
Hypothesis V : valid_user amd u.
Hypothesis HZ : earned_zero amd u l codes q0 q.
Notation o := (q_options q0).
Notation Q := (user_qp u).
Notation err x' := (reltol o / sqrt 3 * (Euclid (fun i => x' i - hx q i) (dn Q) + (if dp Q =? 0 then 0 else Euclid (hy q) (dp Q)) + Euclid (hz q) (dm Q)) +
    IZR (dm Q) * abstol o)%R.

(** Code 0 for an arbitrary matrix P: towards no feasible point does the objective fall by more than the tolerances allow, to first order. *)
Theorem C83_exact x' : feasible Q x' -> (- slope Q (hx q) x' <= err x')%R.
Proof.
  intros HF. destruct (user_dims u) as [D1 [D2 D3]]. destruct (C14_any_solve amd u l codes q0 q V HZ) as [T1 [T2 [T3 T4]]]. cbn [car RA] in *.
  pose proof (slope_bound Q (hx q) (hy q) (hz q) (hs q) x' (reltol o / sqrt 3) (if dp Q =? 0 then 0 else reltol o / sqrt 3)%R (reltol o / sqrt 3) (IZR (dm Q) * abstol o)
    (earned_z amd u l codes q0 q V HZ) (Rlt_le _ _ T1)) as H.
  assert (T3' : (Euclid (res_eq Q (hx q)) (dp Q) <= (if dp Q =? 0 then 0 else reltol o / sqrt 3))%R).
  { destruct (Z.eqb_spec (dp Q) 0) as [E0|E0]; [|left; apply T3; exact E0]. rewrite E0. unfold Euclid, Sum. rewrite zr_nil by lia. cbn [sumr]. rewrite sqrt_0. lra. }
  specialize (H T3' (Rlt_le _ _ T2)).
  assert (T4' : (Sum (dm Q) (fun i => hs q i * hz q i) <= IZR (dm Q) * abstol o)%R).
  { assert (Hm : (0 < IZR (dm Q))%R) by (apply (IZR_lt 0); pose proof (vu_m _ _ V); cbn [car RA] in *; lia).
    unfold gap in T4. apply (Rmult_lt_compat_l _ _ _ Hm) in T4. left.
    match goal with |- (?a < _)%R => replace a with (IZR (dm Q) * (a / IZR (dm Q)))%R by (field; lra) end. exact T4. }
  specialize (H T4' HF). destruct (dp Q =? 0); lra.
Qed.

(** With P symmetric: how much better a feasible point can be, in terms of the curvature towards it. *)
Theorem C83_curvature x' : symmetric Q -> feasible Q x' ->
  (objective Q (hx q) - objective Q x' <= err x' - 1 / 2 * curvature Q (fun i => x' i - hx q i))%R.
Proof. intros HS HF. pose proof (C83_exact x' HF). rewrite (objective_between Q (hx q) x' HS). lra. Qed.
End Exact.
Print Assumptions C83_exact.
Print Assumptions C83_curvature.

(** The same in doubles. *)
Section Rounded.
Variables (amd : amd_t) (u : user b64) (l : list (call FA)) (codes : list Z) (q0 q : qp b64).
Hypothesis V : valid_user amd u.
Hypothesis HZ : new_zero amd u l codes q0 q.
Hypothesis HK : operations u <= 2 ^ 51.
Hypothesis Fr : is_finite (reltol (q_options q0)) = true.
Hypothesis Fa : is_finite (abstol (q_options q0)) = true.
Hypothesis Ns : nonneg_vec (q_s q) (u_m u).
Hypothesis Nz : nonneg_vec (q_z q) (u_m u).
Notation o := (q_options q0).
Notation Q := (exact_qp u). Notation W := (size_qp u).
Notation x := (vec_of (q_x q)). Notation y := (vec_of (q_y q)). Notation z := (vec_of (q_z q)). Notation s := (vec_of (q_s q)).
Notation t := (met u (B2R (reltol o))).
Notation e_dual := (t + gam u * Euclid (w_dual W x y z) (u_n u))%R.
Notation e_in := (t + gam u * Euclid (w_in W x s) (u_m u))%R.
Notation e_eq := (if u_pe u =? 0 then 0 else t + gam u * Euclid (w_eq W x) (u_pe u))%R.
Notation err x' := (e_dual * Euclid (fun i => x' i - x i) (u_n u) + e_eq * Euclid y (u_pe u) + e_in * Euclid z (u_m u)
     + (IZR (u_m u) * (B2R (abstol o) + bpow radix2 (-510)) + gam u * Sum (u_m u) (fun i => s i * z i)))%R.

Theorem C83_binary64 x' : feasible Q x' -> (- slope Q x x' <= err x')%R.
Proof.
  intros HF. destruct (zero_says amd u l codes q0 q V HZ HK Fr Fa) as [G [_ [_ [[K1 K2 K3] [_ [mu [_ [M1 M2]]]]]]]]. specialize (M2 (M1 Ns Nz)).
  destruct (exact_dims u) as [D1 [D2 D3]]. pose proof (vu_m _ _ V) as Vm. change (car FA) with b64 in *.
  assert (Ps : forall i, 0 <= i < u_m u -> (0 <= s i)%R) by (intros; eapply nonneg_entry; eauto).
  assert (Pz : forall i, 0 <= i < u_m u -> (0 <= z i)%R) by (intros; eapply nonneg_entry; eauto).
  rewrite <- D1, <- D2, <- D3 in *. 
  apply (slope_bound Q x y z s); auto.
  - destruct (Z.eqb_spec (dp Q) 0) as [E0|E0]; [|apply K3; auto]. rewrite E0. unfold Euclid, Sum. rewrite zr_nil by lia. cbn [sumr]. rewrite sqrt_0. lra.
  - unfold gap in M2. rewrite (Sum_ext (dm Q) (fun i => (Rabs (s i) * Rabs (z i))%R) (fun i => (s i * z i)%R)) in M2
        by (intros i Hi; rewrite !Rabs_pos_eq by auto; reflexivity).
    set (S0 := Sum (dm Q) (fun i => (s i * z i)%R)) in *. assert (Im : (1 <= IZR (dm Q))%R) by (apply IZR_le; lia).
    apply (Rmult_lt_compat_l (IZR (dm Q))) in M2; [|lra].
    replace (IZR (dm Q) * (S0 / IZR (dm Q)))%R with S0 in M2 by (field; lra).
    replace (IZR (dm Q) * (B2R (abstol o) + gam u * (S0 / IZR (dm Q)) + bpow radix2 (-510)))%R
      with (IZR (dm Q) * (B2R (abstol o) + bpow radix2 (-510)) + gam u * S0)%R in M2 by (field; lra). lra.
Qed.

Theorem C83_curvature_binary64 x' : symmetric Q -> feasible Q x' ->
  (objective Q x - objective Q x' <= err x' - 1 / 2 * curvature Q (fun i => x' i - x i))%R.
Proof. intros HS HF. pose proof (C83_binary64 x' HF). rewrite (objective_between Q x x' HS). lra. Qed.
End Rounded.
Print Assumptions C83_binary64.
Print Assumptions C83_curvature_binary64.

(** ** Numbers between bounds *)
Definition fraction (x : b64) : option (Z * Z) := match x with
  | B754_zero _ => Some (0, 1)
  | B754_finite s mx e _ => if e <=? 0 then Some (cond_Zopp s (Z.pos mx), 2 ^ (- e)) else None
  | _ => None end.
(** lo / k <= x <= hi / k *)
Definition between (lo hi k : Z) (x : b64) : bool := match fraction x with Some (a, d) => (lo * d <=? a * k) && (a * k <=? hi * d) | None => false end.

Lemma fraction_ok x a d : fraction x = Some (a, d) -> 0 < d /\ B2R x = (IZR a / IZR d)%R.
Proof.
  destruct x as [s|s| |s mx e Hx]; cbn [fraction]; try discriminate.
  - intros [= <- <-]. split; [lia|]. cbn [B2R]. lra.
  - destruct (Z.leb_spec e 0) as [He|He]; [|discriminate]. intros [= <- <-]. split; [apply Z.pow_pos_nonneg; lia|].
    assert (E : bpow radix2 e = (/ IZR (2 ^ (- e)))%R).
    { change (2 ^ (- e)) with (radix_val radix2 ^ (- e)). rewrite IZR_Zpower by lia. rewrite <- bpow_opp, Z.opp_involutive. reflexivity. }
    cbn [B2R]. unfold F2R. cbn [Fnum Fexp]. rewrite E. reflexivity.
Qed.
Lemma between_ok lo hi k x : 0 < k -> between lo hi k x = true -> (IZR lo / IZR k <= B2R x <= IZR hi / IZR k)%R.
Proof.
  intros Hk. unfold between. destruct (fraction x) as [[a d]|] eqn:E; [|discriminate]. intros H. apply andb_prop in H. destruct H as [H1 H2].
  apply Z.leb_le in H1, H2. destruct (fraction_ok x a d E) as [Hd ->]. apply IZR_le in H1, H2. rewrite !mult_IZR in H1, H2.
  apply (IZR_lt 0) in Hk, Hd.
  split; (apply Rmult_le_reg_r with (IZR k * IZR d)%R; [apply Rmult_lt_0_compat; auto|]).
  - replace (IZR lo / IZR k * (IZR k * IZR d))%R with (IZR lo * IZR d)%R by (field; lra). replace (IZR a / IZR d * (IZR k * IZR d))%R with (IZR a * IZR k)%R by (field; lra). exact H1.
  - replace (IZR hi / IZR k * (IZR k * IZR d))%R with (IZR hi * IZR d)%R by (field; lra). replace (IZR a / IZR d * (IZR k * IZR d))%R with (IZR a * IZR k)%R by (field; lra). exact H2.
Qed.

Definition opt83 : settings (car FA) := (default_settings FA) <| reltol := fdec FA 1 1000 |> <| abstol := fdec FA 1 1000 |>.

(** ** Without convexity: minimise -x^2/2 subject to -1 <= x <= 1 *)
Definition hill : user (car FA) :=
  mkUser 1 2 0 (zs [0; 1]) (zs [0]) (fs FA [-1]) None None None
    (zs [0; 2]) (zs [0; 1]) (fs FA [1; -1]) (fs FA [0]) (fs FA [1; 1]) None (f0 FA) (Some (zs [0; 1; 2])).
Lemma hill_valid amd : valid_user amd hill.
Proof.
  constructor; cbn [hill u_n u_m u_p u_Pjc u_Pir u_Ppr u_Gjc u_Gir u_Gpr u_c u_h u_perm].
  - lia.
  - lia.
  - csc_concrete.
  - csc_concrete.
  - intros ajc air apr bb E. discriminate E.
  - intros i Hi. enum i; eexists; reflexivity.
  - intros i Hi. enum i; eexists; reflexivity.
  - exists 0, 0, (fofZ FA (-1)). split; [lia|]. left. exists 0, 1, 0. cbn. repeat split; auto; lia.
  - change (u_N hill) with 3. perm_concrete.
Qed.

Definition all_pos (a : arr b64) : bool := forallb (fun o => match o with Some v => pos_b v | None => false end) a.
Lemma all_pos_ok a k : all_pos a = true -> k <= zlen a -> nonneg_vec a k.
Proof.
  intros H L i Hi. unfold all_pos in H. rewrite forallb_forall in H. unfold rd. destruct (Z.ltb_spec i 0); [lia|].
  destruct (nth_error a (Z.to_nat i)) as [[v|]|] eqn:E.
  - exists v. split; [reflexivity|]. apply pos_b_ok. exact (H _ (nth_error_In _ _ E)).
  - specialize (H _ (nth_error_In _ _ E)). discriminate H.
  - apply nth_error_None in E. unfold zlen in L. lia.
Qed.

Definition check83 (k : Z) (f : arr b64 -> bool) (r1 r2 : res (list Z * qp b64)) : bool := match r1, r2 with
  | Ok ([], q0), Ok ([c], q) => (c =? 0) && is_finite (reltol (q_options q0)) && is_finite (abstol (q_options q0)) &&
      all_pos (q_s q) && all_pos (q_z q) && (k <=? zlen (q_s q)) && (k <=? zlen (q_z q)) && f (q_x q)
  | _, _ => false end.
Lemma check83_ok k f r1 r2 : check83 k f r1 r2 = true -> exists q0 q, r1 = Ok ([], q0) /\ r2 = Ok ([0], q) /\
  is_finite (reltol (q_options q0)) = true /\ is_finite (abstol (q_options q0)) = true /\ nonneg_vec (q_s q) k /\ nonneg_vec (q_z q) k /\ f (q_x q) = true.
Proof.
  unfold check83. destruct r1 as [[[|] q0]| |], r2 as [[[|c [|]] q]| |]; try discriminate. intros H.
  repeat (apply andb_prop in H; destruct H as [H ?]). apply Z.eqb_eq in H. subst c.
  exists q0, q. do 4 (split; [auto|]). split; [apply all_pos_ok; auto; apply Z.leb_le; auto|]. split; [apply all_pos_ok; auto; apply Z.leb_le; auto|auto].
Qed.

Notation first83 := [SetOptions FA opt83].
Definition near_0 (a : arr b64) : bool := between (-1) 1 1000 (get B754_nan a 0).
Lemma run83_hill : check83 2 near_0 (session FA noamd hill first83) (session FA noamd hill (first83 ++ [Solve FA])) = true.
Proof. vm_compute. reflexivity. Qed.

Lemma first83_quiet u : quiet_calls FA u (first83 ++ [Solve FA]).
Proof. right. intros o [H|[H|[]]]; [injection H as <-; cbn; lia|discriminate H]. Qed.

(** Code 0 is returned at a point that is, up to 1/1000, the worst of all feasible points. *)
Theorem C83_convex_refuted : exists u q0 q, valid_user noamd u /\ new_zero noamd u first83 [] q0 q /\ operations u <= 2 ^ 51 /\
  is_finite (reltol (q_options q0)) = true /\ is_finite (abstol (q_options q0)) = true /\ nonneg_vec (q_s q) (u_m u) /\ nonneg_vec (q_z q) (u_m u) /\
  let Q := exact_qp u in let x := vec_of (q_x q) in
  symmetric Q /\ feasible Q x /\ (forall x', feasible Q x' -> (objective Q x' <= objective Q x + 1 / 1000)%R) /\
  feasible Q (fun _ => 1%R) /\ (objective Q (fun _ => 1) < objective Q x - 4 / 10)%R.
Proof.
  destruct (check83_ok _ _ _ _ run83_hill) as [q0 [q [E1 [E2 [F1 [F2 [Ns [Nz Hx]]]]]]]].
  exists hill, q0, q. split; [apply hill_valid|]. split; [constructor; auto; [apply first83_quiet|cbn; discriminate]|].
  split; [vm_compute; discriminate|]. do 4 (split; [assumption|]). cbv zeta.
  pose proof (exact_dims hill) as [D1 [D2 D3]]. change (u_n hill) with 1 in D1. change (u_m hill) with 2 in D2. change (u_pe hill) with 0 in D3.
  assert (X : (-1 / 1000 <= vec_of (q_x q) 0 <= 1 / 1000)%R) by exact (between_ok (-1) 1 1000 _ ltac:(lia) Hx). clear Hx.
  assert (PE : dP (exact_qp hill) 0 0 = (-1)%R) by (transitivity (B2R (fofZ FA (-1) : b64) + 0)%R; [reflexivity|rewrite val_m1; lra]).
  assert (G0 : dG (exact_qp hill) 0 0 = 1%R) by (transitivity (B2R (fofZ FA 1 : b64) + (0 + 0))%R; [reflexivity|rewrite val_1; lra]).
  assert (G1 : dG (exact_qp hill) 1 0 = (-1)%R) by (transitivity (0 + (B2R (fofZ FA (-1) : b64) + 0))%R; [reflexivity|rewrite val_m1; lra]).
  assert (CE : dc (exact_qp hill) 0 = 0%R) by exact val_0.
  assert (H0 : dh (exact_qp hill) 0 = 1%R) by exact val_1. assert (H1 : dh (exact_qp hill) 1 = 1%R) by exact val_1.
  assert (S1 : forall f : Z -> R, Sum 1 f = f 0%Z) by (intros f; unfold Sum; change (zr 0 1) with [0]; cbn [sumr]; lra).
  assert (OB : forall v, objective (exact_qp hill) v = (- (v 0%Z * v 0%Z) / 2)%R) by (intros v; unfold objective; rewrite D1, !S1, PE, CE; lra).
  assert (FE : forall v, feasible (exact_qp hill) v <-> (-1 <= v 0%Z <= 1)%R).
  { intros v. unfold feasible. rewrite D2, D3, D1. split.
    - intros [_ Hf]. pose proof (Hf 0 ltac:(lia)) as A0. pose proof (Hf 1 ltac:(lia)) as A1. rewrite S1 in A0, A1. rewrite G0, H0 in A0. rewrite G1, H1 in A1. lra.
    - intros Hv. split; [intros i Hi; lia|]. intros i Hi. rewrite S1. enum i; [rewrite G0, H0|rewrite G1, H1]; lra. }
  split; [intros i j Hi Hj; rewrite D1 in *; replace i with 0 by lia; replace j with 0 by lia; reflexivity|].
  set (v := vec_of (q_x q) 0) in *. assert (XX : (v * v <= 1 / 1000)%R) by nra.
  split; [apply FE; fold v; lra|]. split; [intros x' Hf; rewrite !OB; fold v; pose proof (Rle_0_sqr (x' 0%Z)) as HX; unfold Rsqr in HX; lra|].
  split; [apply FE; lra|]. rewrite !OB. fold v. lra.
Qed.
Print Assumptions C83_convex_refuted.

(** ** Without symmetry: P = (2 1; 0 2), so x'P x / 2 = x1^2 + x1 x2 / 2 + x2^2; c = (-2, -2); x1 <= 4 *)
Definition skew : user (car FA) :=
  mkUser 2 1 0 (zs [0; 1; 3]) (zs [0; 0; 1]) (fs FA [2; 1; 2]) None None None
    (zs [0; 1; 1]) (zs [0]) (fs FA [1]) (fs FA [-2; -2]) (fs FA [4]) None (f0 FA) (Some (zs [0; 1; 2])).
Lemma skew_valid amd : valid_user amd skew.
Proof.
  constructor; cbn [skew u_n u_m u_p u_Pjc u_Pir u_Ppr u_Gjc u_Gir u_Gpr u_c u_h u_perm].
  - lia.
  - lia.
  - csc_concrete.
  - csc_concrete.
  - intros ajc air apr bb E. discriminate E.
  - intros i Hi. enum i; eexists; reflexivity.
  - intros i Hi. enum i; eexists; reflexivity.
  - exists 0, 0, (fofZ FA 2). split; [lia|]. left. exists 0, 1, 0. cbn. repeat split; auto; lia.
  - change (u_N skew) with 3. perm_concrete.
Qed.
Definition near_half_1 (a : arr b64) : bool := between 499 501 1000 (get B754_nan a 0) && between 999 1001 1000 (get B754_nan a 1).
Lemma run83_skew : check83 1 near_half_1 (session FA noamd skew first83) (session FA noamd skew (first83 ++ [Solve FA])) = true.
Proof. vm_compute. reflexivity. Qed.

Lemma val_2 : B2R (fofZ FA 2 : b64) = 2%R.
Proof. rewrite (sf1_R _ false (-51)) by (vm_compute; reflexivity). change (bpow radix2 (-51)) with (/ 2251799813685248)%R. lra. Qed.
Lemma val_m2 : B2R (fofZ FA (-2) : b64) = (-2)%R.
Proof. rewrite (sf1_R _ true (-51)) by (vm_compute; reflexivity). change (bpow radix2 (-51)) with (/ 2251799813685248)%R. lra. Qed.
Lemma val_4 : B2R (fofZ FA 4 : b64) = 4%R.
Proof. rewrite (sf1_R _ false (-50)) by (vm_compute; reflexivity). change (bpow radix2 (-50)) with (/ 1125899906842624)%R. lra. Qed.

(** The problem is strictly convex, code 0 is returned with tolerances 1/1000, and a feasible point is better by more than 9/100. *)
Theorem C83_symmetric_refuted : exists u q0 q x', valid_user noamd u /\ new_zero noamd u first83 [] q0 q /\ operations u <= 2 ^ 51 /\
  is_finite (reltol (q_options q0)) = true /\ is_finite (abstol (q_options q0)) = true /\ nonneg_vec (q_s q) (u_m u) /\ nonneg_vec (q_z q) (u_m u) /\
  let Q := exact_qp u in let x := vec_of (q_x q) in
  psd_on Q /\ feasible Q x /\ feasible Q x' /\ (objective Q x' < objective Q x - 9 / 100)%R.
Proof.
  destruct (check83_ok _ _ _ _ run83_skew) as [q0 [q [E1 [E2 [F1 [F2 [Ns [Nz Hx]]]]]]]].
  exists skew, q0, q, (fun _ => (4 / 5)%R). split; [apply skew_valid|]. split; [constructor; auto; [apply first83_quiet|cbn; discriminate]|].
  split; [vm_compute; discriminate|]. do 4 (split; [assumption|]). cbv zeta.
  pose proof (exact_dims skew) as [D1 [D2 D3]]. change (u_n skew) with 2 in D1. change (u_m skew) with 1 in D2. change (u_pe skew) with 0 in D3.
  apply andb_prop in Hx. destruct Hx as [Hx Hy].
  assert (X : (499 / 1000 <= vec_of (q_x q) 0 <= 501 / 1000)%R) by exact (between_ok 499 501 1000 _ ltac:(lia) Hx).
  assert (Y : (999 / 1000 <= vec_of (q_x q) 1 <= 1001 / 1000)%R) by exact (between_ok 999 1001 1000 _ ltac:(lia) Hy). clear Hx Hy.
  assert (P00 : dP (exact_qp skew) 0 0 = 2%R) by (transitivity (B2R (fofZ FA 2 : b64) + 0)%R; [reflexivity|rewrite val_2; lra]).
  assert (P01 : dP (exact_qp skew) 0 1 = 1%R) by (transitivity (B2R (fofZ FA 1 : b64) + (0 + 0))%R; [reflexivity|rewrite val_1; lra]).
  assert (P10 : dP (exact_qp skew) 1 0 = 0%R) by (transitivity (0 + 0)%R; [reflexivity|lra]).
  assert (P11 : dP (exact_qp skew) 1 1 = 2%R) by (transitivity (0 + (B2R (fofZ FA 2 : b64) + 0))%R; [reflexivity|rewrite val_2; lra]).
  assert (G0 : dG (exact_qp skew) 0 0 = 1%R) by (transitivity (B2R (fofZ FA 1 : b64) + 0)%R; [reflexivity|rewrite val_1; lra]).
  assert (G1 : dG (exact_qp skew) 0 1 = 0%R) by reflexivity.
  assert (C0 : dc (exact_qp skew) 0 = (-2)%R) by exact val_m2. assert (C1 : dc (exact_qp skew) 1 = (-2)%R) by exact val_m2.
  assert (H0 : dh (exact_qp skew) 0 = 4%R) by exact val_4.
  assert (S1 : forall f : Z -> R, Sum 1 f = f 0%Z) by (intros f; unfold Sum; change (zr 0 1) with [0]; cbn [sumr]; lra).
  assert (S2 : forall f : Z -> R, Sum 2 f = (f 0%Z + f 1%Z)%R) by (intros f; unfold Sum; change (zr 0 2) with [0; 1]; cbn [sumr]; lra).
  assert (OB : forall v, objective (exact_qp skew) v = (v 0%Z * v 0%Z + v 0%Z * v 1%Z / 2 + v 1%Z * v 1%Z - 2 * v 0%Z - 2 * v 1%Z)%R)
    by (intros v; unfold objective; rewrite D1, !S2, P00, P01, P10, P11, C0, C1; lra).
  assert (FE : forall v, feasible (exact_qp skew) v <-> (v 0%Z <= 4)%R).
  { intros v. unfold feasible. rewrite D2, D3, D1. split.
    - intros [_ Hf]. pose proof (Hf 0 ltac:(lia)) as A0. rewrite S2, G0, G1, H0 in A0. lra.
    - intros Hv. split; [intros i Hi; lia|]. intros i Hi. replace i with 0 by lia. rewrite S2, G0, G1, H0. lra. }
  split.
  { intros v. rewrite D1, !S2, P00, P01, P10, P11. nra. }
  split; [apply FE; lra|]. split; [apply FE; lra|]. rewrite !OB. nra.
Qed.
Print Assumptions C83_symmetric_refuted.

(** Case for the exact theorems: minimise x^2/2 subject to x >= 1, towards x' = 2. *)
Lemma C83_case amd : exists q0 q, valid_user amd natural /\ earned_zero amd natural calls14 [2] q0 q /\
  symmetric (user_qp natural) /\ feasible (user_qp natural) (fun _ => 2%R).
Proof.
  destruct (C14_any_case amd) as [q0 [q [V HZ]]]. exists q0, q. split; [exact V|]. split; [exact HZ|]. split; [exact Qs_sym|].
  assert (S1 : forall f : Z -> R, Sum 1 f = f 0%Z) by (intros f; unfold Sum; change (zr 0 1) with [0]; cbn [sumr]; lra).
  split; [intros i Hi; change (dp (user_qp natural)) with 0 in Hi; lia|]. intros i Hi. change (dm (user_qp natural)) with 1 in Hi. replace i with 0 by lia.
  change (dn (user_qp natural)) with 1. rewrite S1. pose proof Qs_G as HG. pose proof Qs_h as Hh. 
  change (dG (user_qp natural) 0 0) with (dG Qs 0 0). change (dh (user_qp natural) 0) with (dh Qs 0). rewrite HG, Hh. lra.
Qed.
