(** C62: exit code 0 in binary64, for any solve of any session, and for infeasible and unbounded problems. *)
From Coq Require Import ZArith Reals List Lia Lra Bool.
From RecordUpdate Require Import RecordUpdate.
From Flocq Require Import Core BinarySingleNaN.
From Verif Require Import Res Partial Arith Lists MSparse Csc SemVec Flat TransposeProofs KktProofs MLdl LdlSym LdlNum LdlR
  LdlFun MSolver VecOps Iter SafeInst Setup Session Spec SpecLink QpSpec NewtonR PointR Api P2_Kkt P4_Always P5_Session P6_Codes Demo
  StepFacts QpFacts Round P14_Round.
Import ListNotations.
Open Scope Z_scope.

(** ** Small residuals exclude strong certificates *)
Section Small.
Variable Q : QPdata.
Notation n := (dn Q). Notation m := (dm Q). Notation p := (dp Q).
Open Scope R_scope.

Lemma small_sum k (f g : Z -> R) e : Euclid g k <= e -> - Sum k (fun i => f i * g i) <= e * Euclid f k.
Proof.
  intros H. rewrite <- Sum_opp. rewrite (Sum_ext k _ (fun i => f i * - g i)) by (intros; ring).
  eapply Rle_trans; [apply Rle_abs|]. eapply Rle_trans; [apply (Cauchy k f (fun i => - g i))|].
  rewrite Rmult_comm. apply Rmult_le_compat_r; [apply Euclid_nonneg|].
  rewrite (Euclid_ext _ (fun i => -1 * g i)) by (intros; ring). rewrite Euclid_scal, Rabs_left by lra. lra.
Qed.

Lemma small_certificate x s y' z' e1 e2 : (forall i, (0 <= i < m)%Z -> 0 <= s i) ->
  Euclid (res_in Q x s) m <= e1 -> Euclid (res_eq Q x) p <= e2 -> infeasibility_certificate Q y' z' ->
  - certificate_value Q y' z' <= e1 * Euclid z' m + e2 * Euclid y' p.
Proof.
  intros Hs H2 H3 [Hz H0]. unfold certificate_value.
  assert (E : Sum n (fun j => (Sum m (fun i => dG Q i j * z' i) + Sum p (fun k => dA Q k j * y' k)) * x j) = 0).
  { apply Sum_zero. intros j Hj. rewrite H0 by auto. ring. }
  rewrite (Sum_ext n _ (fun j => Sum m (fun i => dG Q i j * z' i) * x j + Sum p (fun k => dA Q k j * y' k) * x j)) in E by (intros; ring).
  rewrite Sum_plus, transpose_G, transpose_A in E.
  assert (E1 : Sum m (fun i => dh Q i * z' i) = Sum m (fun i => z' i * res_in Q x s i) + Sum m (fun i => z' i * s i) +
    Sum m (fun i => z' i * Sum n (fun j => dG Q i j * x j))).
  { rewrite <- !Sum_plus. apply Sum_ext. intros i Hi. unfold res_in. ring. }
  assert (E2 : Sum p (fun k => db Q k * y' k) = Sum p (fun k => y' k * res_eq Q x k) + Sum p (fun i => y' i * Sum n (fun j => dA Q i j * x j))).
  { rewrite <- !Sum_plus. apply Sum_ext. intros i Hi. unfold res_eq. ring. }
  assert (E3 : 0 <= Sum m (fun i => z' i * s i)) by (apply Sum_nonneg; intros i Hi; apply Rmult_le_pos; auto).
  pose proof (small_sum m z' (res_in Q x s) e1 H2). pose proof (small_sum p y' (res_eq Q x) e2 H3). lra.
Qed.

Lemma small_unbounded x y z d e : symmetric Q -> (forall i, (0 <= i < m)%Z -> 0 <= z i) -> Euclid (res_dual Q x y z) n <= e ->
  unbounded_direction Q d -> - Sum n (fun j => dc Q j * d j) <= e * Euclid d n.
Proof.
  intros HS Hz H1 [HP HA HG].
  assert (E0 : Sum n (fun j => d j * Sum n (fun k => dP Q j k * x k)) = 0).
  { rewrite (Sum_ext n _ (fun j => Sum n (fun k => x k * (dP Q k j * d j)))).
    2:{ intros j Hj. rewrite <- Sum_scal. apply Sum_ext. intros k Hk. rewrite (HS j k) by auto. ring. }
    rewrite Sum_swap. apply Sum_zero. intros k Hk. rewrite Sum_scal, HP by auto. ring. }
  assert (E : - Sum n (fun j => dc Q j * d j) = Sum n (fun j => res_dual Q x y z j * d j) +
     Sum m (fun i => z i * Sum n (fun j => dG Q i j * d j)) + Sum p (fun k => y k * Sum n (fun j => dA Q k j * d j))).
  { rewrite <- transpose_G, <- transpose_A, <- !Sum_plus.
    rewrite (Sum_ext n (fun j => res_dual Q x y z j * d j + _ + _) (fun j => - (dc Q j * d j) - d j * Sum n (fun k => dP Q j k * x k)))
      by (intros j Hj; unfold res_dual; ring).
    rewrite Sum_minus, E0, Sum_opp. ring. }
  assert (E1 : Sum m (fun i => z i * Sum n (fun j => dG Q i j * d j)) <= 0).
  { rewrite <- (Sum_zero m (fun _ => 0)) by auto. apply Sum_le. intros i Hi. replace 0 with (z i * 0) by ring. apply Rmult_le_compat_l; auto. }
  assert (E2 : Sum p (fun k => y k * Sum n (fun j => dA Q k j * d j)) = 0).
  { apply Sum_zero. intros k Hk. rewrite HA by auto. ring. }
  assert (E3 : Sum n (fun j => res_dual Q x y z j * d j) <= e * Euclid d n).
  { eapply Rle_trans; [apply Rle_abs|]. eapply Rle_trans; [apply (Cauchy n (res_dual Q x y z) d)|].
    apply Rmult_le_compat_r; [apply Euclid_nonneg|exact H1]. }
  lra.
Qed.
End Small.

(** ** C62 *)

(** The solve at the end of the session [l ++ [Solve]] returned 0 and the call before it, if any, did not.
    ([q0] is the handle before that solve, [q] after it.  After an earlier 0 the code can be left over, see C20.) *)
Record new_zero (amd : amd_t) (u : user b64) (l : list (call FA)) (codes : list Z) (q0 q : qp b64) : Prop := mkNewZero {
  nz_quiet : quiet_calls FA u (l ++ [Solve FA]);
  nz_before : session FA amd u l = Ok (codes, q0);
  nz_after : session FA amd u (l ++ [Solve FA]) = Ok (codes ++ [0], q);
  nz_new : last codes 3 <> 0
}.

Section Codes.
Variables (amd : amd_t) (u : user b64) (l : list (call FA)) (codes : list Z) (q0 q : qp b64).
Hypothesis V : valid_user amd u.
Hypothesis HZ : new_zero amd u l codes q0 q.
Hypothesis HK : operations u <= 2 ^ 51.
Hypothesis Fr : is_finite (reltol (q_options q0)) = true.
Hypothesis Fa : is_finite (abstol (q_options q0)) = true.
Notation o := (q_options q0).
Notation Q := (exact_qp u). Notation W := (size_qp u).
Notation x := (vec_of (q_x q)). Notation y := (vec_of (q_y q)). Notation z := (vec_of (q_z q)). Notation s := (vec_of (q_s q)).
Notation t := (met u (B2R (reltol o))).
Notation e_dual := (t + gam u * Euclid (w_dual W x y z) (u_n u))%R.
Notation e_in := (t + gam u * Euclid (w_in W x s) (u_m u))%R.
Notation e_eq := (if u_pe u =? 0 then 0 else t + gam u * Euclid (w_eq W x) (u_pe u))%R.

Lemma zero_says : test_says u o q.
Proof.
  destruct HZ as [Hq E1 E2 Hn].
  destruct (C20_any_solve FA _ amd u l (Safe_total FA FA_total) V Hq) as [cs [qa [c [qb [E1' [E2' [Hf [_ H]]]]]]]].
  rewrite E1 in E1'. injection E1' as <- <-. rewrite E2 in E2'. injection E2' as Ec <-. apply app_inj_tail in Ec. destruct Ec as [_ <-].
  destruct H as [[H1 [H2 _]]|[_ Hc]]; [exact (test_binary64 amd u _ o _ q V Hq HK Fr Fa E2 H1 H2)|].
  exfalso. rewrite Hf in Hc. destruct (_ =? _) in Hc; [discriminate Hc|congruence].
Qed.

(** Code 0: the residuals of the mathematical problem at the returned point, and its duality measure. *)
Theorem C62_any_solve :
  (0 < gam u <= 1 / 2)%R /\ finite_data u /\ (0 <= B2R (reltol o))%R /\ near_kkt Q W t (gam u) x y z s /\
  (forall i, 0 <= i < u_m u -> is_finite (get B754_nan (q_s q) i) = true) /\
  exists mu, n_mu (q_stats q) = Some mu /\
    (nonneg_vec (q_s q) (u_m u) -> nonneg_vec (q_z q) (u_m u) -> is_finite mu = true) /\
    (is_finite mu = true -> (gap Q s z < B2R (abstol o) + gam u * gap Q (fun i => Rabs (s i)) (fun i => Rabs (z i)) + bpow radix2 (-510))%R).
Proof. exact zero_says. Qed.

(** Code 0: how far the point is from feasible and from optimal. *)
Theorem C62_near_optimal x' : nonneg_vec (q_s q) (u_m u) -> nonneg_vec (q_z q) (u_m u) ->
  (forall i, 0 <= i < u_m u -> (Sum (u_n u) (fun j => dG Q i j * x j) <= dh Q i + e_in)%R) /\
  (forall i, 0 <= i < u_pe u -> (Rabs (db Q i - Sum (u_n u) (fun j => dA Q i j * x j)) <= e_eq)%R) /\
  (symmetric Q -> psd_on Q -> feasible Q x' ->
   (objective Q x - objective Q x' <= e_dual * Euclid (fun i => x' i - x i) (u_n u) + e_eq * Euclid y (u_pe u) + e_in * Euclid z (u_m u)
     + IZR (u_m u) * (B2R (abstol o) + bpow radix2 (-510)) + gam u * Sum (u_m u) (fun i => s i * z i))%R).
Proof. intros Ns Nz. exact (says_near_optimal u o q x' (vu_m _ _ V) zero_says Ns Nz). Qed.

Lemma nonneg_entry (a : arr b64) k i : nonneg_vec a k -> 0 <= i < k -> (0 <= vec_of a i)%R.
Proof. intros Ha Hi. destruct (Ha i Hi) as [v [Hv [_ Hp]]]. unfold vec_of, get. rewrite Hv. exact Hp. Qed.

(** Code 0 on an infeasible problem: every certificate of infeasibility is weak. *)
Theorem C62_certificates y' z' : nonneg_vec (q_s q) (u_m u) -> infeasibility_certificate Q y' z' ->
  (- certificate_value Q y' z' <= e_in * Euclid z' (u_m u) + e_eq * Euclid y' (u_pe u))%R.
Proof.
  intros Ns HC. destruct zero_says as [_ [_ [_ [[_ K2 K3] _]]]]. destruct (exact_dims u) as [D1 [D2 D3]].
  rewrite D2 in K2. rewrite D3 in K3.
  assert (K3' : (Euclid (res_eq Q x) (u_pe u) <= e_eq)%R).
  { destruct (Z.eqb_spec (u_pe u) 0) as [E0|E0]; [|apply K3; auto]. rewrite E0. unfold Euclid, Sum. rewrite zr_nil by lia. cbn [sumr]. rewrite sqrt_0. lra. }
  rewrite <- D2 in K2 at 1. rewrite <- D3 in K3' at 1.
  rewrite <- D2 at 2. rewrite <- D3 at 3. apply (small_certificate Q x s y' z'); auto.
  intros i Hi. apply (nonneg_entry _ (u_m u)); auto. rewrite <- D2. exact Hi.
Qed.

(** Code 0 on an unbounded problem: every direction of descent is slow. *)
Theorem C62_unbounded d : nonneg_vec (q_z q) (u_m u) -> symmetric Q -> unbounded_direction Q d ->
  (- Sum (u_n u) (fun j => dc Q j * d j) <= e_dual * Euclid d (u_n u))%R.
Proof.
  intros Nz HS HU. destruct zero_says as [_ [_ [_ [[K1 _ _] _]]]]. destruct (exact_dims u) as [D1 [D2 D3]].
  pose proof (small_unbounded Q x y z d _ HS (fun i Hi => nonneg_entry _ (u_m u) i Nz ltac:(rewrite <- D2; exact Hi)) K1 HU) as H.
  rewrite D1 in H. exact H.
Qed.
End Codes.
Print Assumptions C62_any_solve.
Print Assumptions C62_near_optimal.
Print Assumptions C62_certificates.
Print Assumptions C62_unbounded.

(** ** Case: x1 <= 0 and x1 >= 1/64 cannot both hold, and -x2/64 has no minimum; reltol is 1/20.
    A first solve stops at its limit of one iteration, the second returns 0. *)
Definition odd : user (car FA) :=
  mkUser 2 2 0
    (zs [0; 1; 2]) (zs [0; 1]) [Some (fofZ FA 1); Some (fofZ FA 0)]
    None None None
    (zs [0; 2; 2]) (zs [0; 1]) (fs FA [1; -1])
    [Some (fofZ FA 0); Some (fdec FA (-1) 64)] [Some (fofZ FA 0); Some (fdec FA (-1) 64)] None (f0 FA)
    (Some (zs [3; 2; 1; 0])).

Definition opt62 (k : Z) : settings (car FA) := (default_settings FA) <| maxit := k |> <| reltol := fdec FA 1 20 |> <| abstol := fdec FA 1 20 |>.
Definition calls62 : list (call FA) := [SetOptions FA (opt62 1); Solve FA; SetOptions FA (opt62 100)].

Lemma odd_valid amd : valid_user amd odd.
Proof.
  constructor; cbn [odd u_n u_m u_p u_Pjc u_Pir u_Ppr u_Gjc u_Gir u_Gpr u_c u_h u_perm].
  - lia.
  - lia.
  - csc_concrete.
  - csc_concrete.
  - intros ajc air apr bb E. discriminate E.
  - intros i Hi. enum i; eexists; reflexivity.
  - intros i Hi. enum i; eexists; reflexivity.
  - exists 0, 0, (fofZ FA 1). split; [lia|]. left. exists 0, 1, 0. cbn. repeat split; auto; lia.
  - change (u_N odd) with 4. perm_concrete.
Qed.

Definition check62 (r1 r2 : res (list Z * qp b64)) : bool := match r1, r2 with
  | Ok (l1, q0), Ok (l2, q) => match l1, l2 with [a], [b; c] => (a =? 2) && (b =? 2) && (c =? 0) | _, _ => false end &&
      is_finite (reltol (q_options q0)) && is_finite (abstol (q_options q0)) &&
      match rd (q_s q) 0, rd (q_s q) 1, rd (q_z q) 0, rd (q_z q) 1 with
      | Ok a, Ok b, Ok c, Ok d => pos_b a && pos_b b && pos_b c && pos_b d | _, _, _, _ => false end
  | _, _ => false end.
Lemma check62_ok r1 r2 : check62 r1 r2 = true -> exists q0 q, r1 = Ok ([2], q0) /\ r2 = Ok ([2; 0], q) /\
  is_finite (reltol (q_options q0)) = true /\ is_finite (abstol (q_options q0)) = true /\ nonneg_vec (q_s q) 2 /\ nonneg_vec (q_z q) 2.
Proof.
  destruct r1 as [[l1 q0]| |], r2 as [[l2 q]| |]; try discriminate. unfold check62. intros H.
  destruct l1 as [|a [|]], l2 as [|b [|c [|]]]; try discriminate H.
  apply andb_prop in H. destruct H as [H H4]. apply andb_prop in H. destruct H as [H H3]. apply andb_prop in H. destruct H as [H H2].
  apply andb_prop in H. destruct H as [H H1]. apply andb_prop in H. destruct H as [Ha Hb].
  apply Z.eqb_eq in Ha, Hb, H1. subst a b c. exists q0, q.
  destruct (rd (q_s q) 0) as [s0| |] eqn:E1; try discriminate H4. destruct (rd (q_s q) 1) as [s1| |] eqn:E2; try discriminate H4.
  destruct (rd (q_z q) 0) as [z0| |] eqn:E3; try discriminate H4. destruct (rd (q_z q) 1) as [z1| |] eqn:E4; try discriminate H4.
  apply andb_prop in H4. destruct H4 as [H4 Z1]. apply andb_prop in H4. destruct H4 as [H4 Z0]. apply andb_prop in H4. destruct H4 as [S0 S1].
  do 4 (split; [auto|]). split; intros i Hi; enum i; eexists; (split; [eassumption|apply pos_b_ok; assumption]).
Qed.

Lemma run62_ok : check62 (session FA noamd odd calls62) (session FA noamd odd (calls62 ++ [Solve FA])) = true.
Proof. vm_compute. reflexivity. Qed.

Definition sf1 (neg : bool) (e : Z) : SpecFloat.spec_float := SpecFloat.S754_finite neg 4503599627370496 e.
Lemma sf1_R (x : b64) neg e : B2SF x = sf1 neg e -> B2R x = (IZR (if neg then -4503599627370496 else 4503599627370496) * bpow radix2 e)%R.
Proof. intros H. rewrite <- SF2R_B2SF, H. unfold sf1, SF2R, F2R. cbn [Fnum Fexp cond_Zopp]. destruct neg; reflexivity. Qed.
Lemma val_1 : B2R (fofZ FA 1 : b64) = 1%R.
Proof. rewrite (sf1_R _ false (-52)) by (vm_compute; reflexivity). change (bpow radix2 (-52)) with (/ 4503599627370496)%R. lra. Qed.
Lemma val_m1 : B2R (fofZ FA (-1) : b64) = (-1)%R.
Proof. rewrite (sf1_R _ true (-52)) by (vm_compute; reflexivity). change (bpow radix2 (-52)) with (/ 4503599627370496)%R. lra. Qed.
Lemma val_d : B2R (fdec FA (-1) 64 : b64) = (- (1 / 64))%R.
Proof. rewrite (sf1_R _ true (-58)) by (vm_compute; reflexivity). change (bpow radix2 (-58)) with (/ 288230376151711744)%R. lra. Qed.
Lemma val_0 : B2R (fofZ FA 0 : b64) = 0%R.
Proof. rewrite <- SF2R_B2SF. replace (B2SF (fofZ FA 0 : b64)) with (SpecFloat.S754_zero false) by (vm_compute; reflexivity). reflexivity. Qed.

Theorem C62_case : exists q0 q, valid_user noamd odd /\ new_zero noamd odd calls62 [2] q0 q /\ operations odd <= 2 ^ 51 /\
  is_finite (reltol (q_options q0)) = true /\ is_finite (abstol (q_options q0)) = true /\
  nonneg_vec (q_s q) (u_m odd) /\ nonneg_vec (q_z q) (u_m odd) /\ symmetric (exact_qp odd) /\
  infeasibility_certificate (exact_qp odd) (fun _ => 0%R) (fun _ => 1%R) /\ certificate_value (exact_qp odd) (fun _ => 0%R) (fun _ => 1%R) = (- (1 / 64))%R /\
  unbounded_direction (exact_qp odd) (fun j => if j =? 1 then 1%R else 0%R) /\ dc (exact_qp odd) 1 = (- (1 / 64))%R.
Proof.
  destruct (check62_ok _ _ run62_ok) as [q0 [q [E1 [E2 [F1 [F2 [Ns Nz]]]]]]].
  exists q0, q. split; [apply odd_valid|]. split; [constructor; auto; [|cbn; discriminate]|].
  { right. intros o [H|[H|[H|[H|[]]]]]; try discriminate H; injection H as <-; cbn; lia. }
  split; [vm_compute; discriminate|]. do 4 (split; [assumption|]).
  pose proof (exact_dims odd) as [D1 [D2 D3]]. change (u_n odd) with 2 in D1. change (u_m odd) with 2 in D2. change (u_pe odd) with 0 in D3.
  assert (PE : forall i j, 0 <= i < 2 -> 0 <= j < 2 -> dP (exact_qp odd) i j = if (i =? 0) && (j =? 0) then 1%R else 0%R).
  { intros i j Hi Hj. enum i; enum j.
    - transitivity (B2R (fofZ FA 1 : b64) + 0)%R; [reflexivity|]. rewrite val_1. cbn [Z.eqb andb]. lra.
    - transitivity (0 + 0)%R; [reflexivity|]. cbn [Z.eqb andb]. lra.
    - transitivity (0 + 0)%R; [reflexivity|]. cbn [Z.eqb andb]. lra.
    - transitivity (B2R (fofZ FA 0 : b64) + 0)%R; [reflexivity|]. rewrite val_0. cbn [Z.eqb andb]. lra. }
  assert (GE : forall i j, 0 <= i < 2 -> 0 <= j < 2 -> dG (exact_qp odd) i j = if j =? 0 then (if i =? 0 then 1 else -1)%R else 0%R).
  { intros i j Hi Hj. enum i; enum j.
    - transitivity (B2R (fofZ FA 1 : b64) + (0 + 0))%R; [reflexivity|]. rewrite val_1. cbn [Z.eqb]. lra.
    - reflexivity.
    - transitivity (0 + (B2R (fofZ FA (-1) : b64) + 0))%R; [reflexivity|]. rewrite val_m1. cbn [Z.eqb]. lra.
    - reflexivity. }
  assert (CE : dc (exact_qp odd) 1 = (- (1 / 64))%R) by exact val_d.
  assert (H0 : dh (exact_qp odd) 0 = 0%R) by exact val_0. assert (H1 : dh (exact_qp odd) 1 = (- (1 / 64))%R) by exact val_d.
  assert (S2 : forall f : Z -> R, Sum 2 f = (f 0%Z + f 1%Z)%R) by (intros f; unfold Sum; change (zr 0 2) with [0; 1]; cbn [sumr]; lra).
  assert (S0 : forall f : Z -> R, Sum 0 f = 0%R) by (intros f; reflexivity).
  split; [intros i j Hi Hj; rewrite D1 in *; rewrite !PE by auto; rewrite andb_comm; reflexivity|].
  split; [constructor; [intros; lra|]|].
  { intros j Hj. rewrite D1 in Hj. rewrite D2, D3, S2, S0, !GE by lia. enum j; cbn [Z.eqb andb Pos.eqb]; lra. }
  split; [unfold certificate_value; rewrite D2, D3, S2, S0, H0, H1; lra|].
  split; [|exact CE].
  constructor; [intros i Hi; rewrite D1 in *; rewrite S2, !PE by lia; enum i; cbn [Z.eqb andb Pos.eqb]; lra|intros k Hk; rewrite D3 in Hk; lia|].
  intros i Hi. rewrite D2 in Hi. rewrite D1, S2, !GE by lia. enum i; cbn [Z.eqb andb Pos.eqb]; lra.
Qed.
