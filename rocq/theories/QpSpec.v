(** Specification side, independent of the model: a quadratic program over the reals
      min 1/2 x'Px + c'x   s.t.  Ax = b,  Gx <= h
    its residuals, feasibility, convexity, and the weak-duality estimate for approximate KKT points. *)
From Coq Require Import ZArith Reals List Lia Lra.
From Verif Require Import Lists.
Open Scope Z_scope.

(** Σ_{0 <= i < k} f i *)
Definition Sum (k : Z) (f : Z -> R) : R := sumr f (zr 0 k).

Record QPdata : Type := mkQPd {
  dn : Z; dm : Z; dp : Z;
  dP : Z -> Z -> R; dA : Z -> Z -> R; dG : Z -> Z -> R;
  dc : Z -> R; db : Z -> R; dh : Z -> R
}.

Open Scope R_scope.

Definition Euclid (v : Z -> R) (k : Z) : R := sqrt (Sum k (fun i => v i * v i)).

Section Spec.
Variable Q : QPdata.
Notation n := (dn Q).
Notation m := (dm Q).
Notation p := (dp Q).

Definition objective (x : Z -> R) : R :=
  1 / 2 * Sum n (fun i => x i * Sum n (fun j => dP Q i j * x j)) + Sum n (fun i => dc Q i * x i).

(** Residuals, with the signs of the code. *)
Definition res_dual (x y z : Z -> R) (j : Z) : R :=
  - Sum n (fun k => dP Q j k * x k) - Sum m (fun i => dG Q i j * z i) - Sum p (fun i => dA Q i j * y i) - dc Q j.
Definition res_eq (x : Z -> R) (i : Z) : R := db Q i - Sum n (fun j => dA Q i j * x j).
Definition res_in (x s : Z -> R) (i : Z) : R := dh Q i - s i - Sum n (fun j => dG Q i j * x j).
Definition gap (s z : Z -> R) : R := Sum m (fun i => s i * z i) / IZR m.

Definition feasible (x : Z -> R) : Prop :=
  (forall i, (0 <= i < p)%Z -> res_eq x i = 0) /\ (forall i, (0 <= i < m)%Z -> Sum n (fun j => dG Q i j * x j) <= dh Q i).

Definition symmetric : Prop := forall i j, (0 <= i < n)%Z -> (0 <= j < n)%Z -> dP Q i j = dP Q j i.
Definition psd_on : Prop := forall v, 0 <= Sum n (fun i => v i * Sum n (fun j => dP Q i j * v j)).

(** The documented stopping test. *)
Definition passes (reltol abstol : R) (x y z s : Z -> R) : Prop :=
  Euclid (res_dual x y z) n < reltol / sqrt 3 /\
  Euclid (res_in x s) m < reltol / sqrt 3 /\
  (p <> 0%Z -> Euclid (res_eq x) p < reltol / sqrt 3) /\
  gap s z < abstol.

End Spec.

(** ** Sums *)

Lemma Sum_ext k f g : (forall i, (0 <= i < k)%Z -> f i = g i) -> Sum k f = Sum k g.
Proof. intros H. apply sumr_ext. intros x Hx. apply in_zr in Hx. auto. Qed.
Lemma Sum_plus k f g : Sum k (fun i => f i + g i) = Sum k f + Sum k g.
Proof. apply sumr_plus. Qed.
Lemma Sum_minus k f g : Sum k (fun i => f i - g i) = Sum k f - Sum k g.
Proof. apply sumr_minus. Qed.
Lemma Sum_opp k f : Sum k (fun i => - f i) = - Sum k f.
Proof. apply sumr_opp. Qed.
Lemma Sum_scal k c f : Sum k (fun i => c * f i) = c * Sum k f.
Proof. apply sumr_scal. Qed.
Lemma Sum_scal_r k c f : Sum k (fun i => f i * c) = Sum k f * c.
Proof. apply sumr_scal_r. Qed.
Lemma Sum_swap k l f : Sum k (fun i => Sum l (f i)) = Sum l (fun j => Sum k (fun i => f i j)).
Proof. apply sumr_swap. Qed.
Lemma Sum_nonneg k f : (forall i, (0 <= i < k)%Z -> 0 <= f i) -> 0 <= Sum k f.
Proof. intros H. apply sumr_nonneg. intros x Hx. apply in_zr in Hx. auto. Qed.
Lemma Sum_le k f g : (forall i, (0 <= i < k)%Z -> f i <= g i) -> Sum k f <= Sum k g.
Proof. intros H. apply sumr_le. intros x Hx. apply in_zr in Hx. auto. Qed.
Lemma Sum_zero k f : (forall i, (0 <= i < k)%Z -> f i = 0) -> Sum k f = 0.
Proof. intros H. apply sumr_zero. intros x Hx. apply in_zr in Hx. auto. Qed.
Lemma Sum_ge_term k f i : (forall i, (0 <= i < k)%Z -> 0 <= f i) -> (0 <= i < k)%Z -> f i <= Sum k f.
Proof.
  intros H Hi. apply sumr_ge_term; [|apply in_zr; auto]. intros y Hy. apply in_zr in Hy. auto.
Qed.
Lemma Sum_split a b f : (0 <= a)%Z -> (0 <= b)%Z -> Sum (a + b) f = Sum a f + Sum b (fun i => f (a + i)%Z).
Proof.
  intros Ha Hb. unfold Sum. rewrite (zr_app 0 a (a + b)), sumr_app by lia. f_equal.
  apply (sumr_reindex f (Z.add a)). assert (E : map (Z.add a) (zr 0 b) = zr a (a + b)); [|rewrite E; apply Permutation.Permutation_refl].
  unfold zr. rewrite map_map. replace (a + b - a)%Z with (b - 0)%Z by lia.
  apply map_ext. intros; lia.
Qed.

Lemma Euclid_nonneg v k : 0 <= Euclid v k.
Proof. apply sqrt_pos. Qed.

Lemma Euclid_entry v k i : (0 <= i < k)%Z -> Rabs (v i) <= Euclid v k.
Proof.
  intros Hi. unfold Euclid. rewrite <- sqrt_Rsqr_abs. apply sqrt_le_1_alt. unfold Rsqr.
  apply (Sum_ge_term k (fun i => v i * v i)); auto. intros. apply Rle_0_sqr.
Qed.

Lemma Euclid_ext v w k : (forall i, (0 <= i < k)%Z -> v i = w i) -> Euclid v k = Euclid w k.
Proof. intros H. unfold Euclid. f_equal. apply Sum_ext. intros i Hi. rewrite H; auto. Qed.

Lemma Euclid_scal c v k : Euclid (fun i => c * v i) k = Rabs c * Euclid v k.
Proof.
  unfold Euclid. rewrite (Sum_ext k _ (fun i => (c * c) * (v i * v i))) by (intros; ring).
  rewrite Sum_scal, sqrt_mult_alt by apply Rle_0_sqr. f_equal. apply sqrt_Rsqr_abs.
Qed.

Lemma Euclid_sq v k : Euclid v k * Euclid v k = Sum k (fun i => v i * v i).
Proof. apply sqrt_sqrt. apply Sum_nonneg. intros. apply Rle_0_sqr. Qed.

(** Cauchy-Schwarz *)
Lemma Cauchy k u v : Rabs (Sum k (fun i => u i * v i)) <= Euclid u k * Euclid v k.
Proof.
  set (a := Euclid u k). set (b := Euclid v k). set (d := Sum k (fun i => u i * v i)).
  assert (Ha : 0 <= a) by apply Euclid_nonneg. assert (Hb : 0 <= b) by apply Euclid_nonneg.
  assert (Haa : a * a = Sum k (fun i => u i * u i)) by apply Euclid_sq.
  assert (Hbb : b * b = Sum k (fun i => v i * v i)) by apply Euclid_sq.
  assert (H : forall t : R, 0 <= t * t * (a * a) - 2 * t * d + b * b).
  { intros t. rewrite Haa, Hbb. unfold d.
    replace (t * t * Sum k (fun i => u i * u i) - 2 * t * Sum k (fun i => u i * v i) + Sum k (fun i => v i * v i))
      with (Sum k (fun i => (t * u i - v i) * (t * u i - v i))).
    - apply Sum_nonneg. intros. apply Rle_0_sqr.
    - rewrite (Sum_ext k _ (fun i => (t * t * (u i * u i) - 2 * t * (u i * v i)) + v i * v i)) by (intros; ring).
      rewrite Sum_plus, Sum_minus, !Sum_scal. reflexivity. }
  assert (Hsq : d * d <= (a * b) * (a * b)).
  { destruct (Req_dec a 0) as [E|E].
    - (* a = 0: d must vanish *)
      destruct (Req_dec d 0) as [Ed|Ed]; [rewrite Ed, E; lra|].
      exfalso. pose proof (H ((b * b + 1) / d)) as Ht. rewrite E in Ht.
      replace (2 * ((b * b + 1) / d) * d) with (2 * (b * b + 1)) in Ht by (field; auto).
      assert (0 <= b * b) by (apply Rle_0_sqr). lra.
    - pose proof (H (d / (a * a))) as Ht.
      replace (d / (a * a) * (d / (a * a)) * (a * a) - 2 * (d / (a * a)) * d + b * b)
        with ((a * a * (b * b) - d * d) / (a * a)) in Ht by (field; auto).
      assert (0 < a * a) by (assert (0 < a) by lra; apply Rmult_lt_0_compat; auto).
      apply (Rmult_le_compat_r (a * a)) in Ht; [|lra]. rewrite Rmult_0_l in Ht.
      replace ((a * a * (b * b) - d * d) / (a * a) * (a * a)) with (a * a * (b * b) - d * d) in Ht by (field; auto).
      lra. }
  apply Rsqr_le_abs_0 in Hsq. rewrite (Rabs_right (a * b)) in Hsq; auto. apply Rle_ge, Rmult_le_pos; auto.
Qed.

(** ** Weak duality for approximate KKT points *)

Section Duality.
Variable Q : QPdata.
Notation n := (dn Q).
Notation m := (dm Q).
Notation p := (dp Q).
Hypothesis Hsym : symmetric Q.
Hypothesis Hpsd : psd_on Q.

Lemma objective_diff x x' :
  objective Q x' - objective Q x =
  Sum n (fun j => (Sum n (fun k => dP Q j k * x k) + dc Q j) * (x' j - x j)) +
  1 / 2 * Sum n (fun i => (x' i - x i) * Sum n (fun j => dP Q i j * (x' j - x j))).
Proof.
  unfold objective.
  set (q := fun u v : Z -> R => Sum n (fun i => u i * Sum n (fun j => dP Q i j * v j))).
  assert (Eq : forall u v, q u v = q v u).
  { intros u v. unfold q.
    rewrite (Sum_ext n _ (fun i => Sum n (fun j => u i * (dP Q i j * v j)))) by (intros; rewrite <- Sum_scal; auto).
    rewrite Sum_swap. apply Sum_ext. intros j Hj. rewrite <- Sum_scal. apply Sum_ext. intros i Hi.
    rewrite (Hsym i j Hi Hj). ring. }
  assert (E1 : Sum n (fun i => (x' i - x i) * Sum n (fun j => dP Q i j * (x' j - x j))) =
               q x' x' - q x' x - q x x' + q x x).
  { rewrite (Sum_ext n _ (fun i => (x' i * Sum n (fun j => dP Q i j * x' j) - x' i * Sum n (fun j => dP Q i j * x j)) -
        x i * Sum n (fun j => dP Q i j * x' j) + x i * Sum n (fun j => dP Q i j * x j))).
    2:{ intros i Hi. rewrite (Sum_ext n (fun j => dP Q i j * (x' j - x j)) (fun j => dP Q i j * x' j - dP Q i j * x j)) by (intros; ring).
        rewrite Sum_minus. ring. }
    rewrite Sum_plus, !Sum_minus. reflexivity. }
  rewrite E1.
  rewrite (Sum_ext n (fun j => (Sum n (fun k => dP Q j k * x k) + dc Q j) * (x' j - x j))
     (fun j => ((x' j * Sum n (fun k => dP Q j k * x k) - x j * Sum n (fun k => dP Q j k * x k)) + dc Q j * x' j) - dc Q j * x j)) by (intros; ring).
  rewrite Sum_minus, Sum_plus, Sum_minus.
  change (Sum n (fun i => x' i * Sum n (fun j => dP Q i j * x j))) with (q x' x).
  change (Sum n (fun i => x i * Sum n (fun j => dP Q i j * x j))) with (q x x).
  change (Sum n (fun i => x' i * Sum n (fun j => dP Q i j * x' j))) with (q x' x').
  rewrite (Eq x x'). lra.
Qed.

(** Objective difference to any feasible x' through the residuals. *)
Lemma weak_duality x y z s x' :
  feasible Q x' -> (forall i, (0 <= i < m)%Z -> 0 <= z i) ->
  objective Q x - objective Q x' <=
    Sum n (fun j => res_dual Q x y z j * (x' j - x j)) + Sum p (fun i => y i * res_eq Q x i)
    + Sum m (fun i => z i * res_in Q x s i) + Sum m (fun i => s i * z i).
Proof.
  intros [Fe Fi] Hz. pose proof (objective_diff x x') as E.
  pose proof (Hpsd (fun i => x' i - x i)) as Hp. cbv beta in Hp.
  assert (G1 : forall u v, Sum n (fun j => Sum m (fun i => dG Q i j * u i) * v j) = Sum m (fun i => u i * Sum n (fun j => dG Q i j * v j))).
  { intros u v. rewrite (Sum_ext n _ (fun j => Sum m (fun i => u i * (dG Q i j * v j)))).
    2:{ intros j Hj. rewrite <- Sum_scal_r. apply Sum_ext. intros; ring. }
    rewrite Sum_swap. apply Sum_ext. intros. apply Sum_scal. }
  assert (G2 : forall u v, Sum n (fun j => Sum p (fun i => dA Q i j * u i) * v j) = Sum p (fun i => u i * Sum n (fun j => dA Q i j * v j))).
  { intros u v. rewrite (Sum_ext n _ (fun j => Sum p (fun i => u i * (dA Q i j * v j)))).
    2:{ intros j Hj. rewrite <- Sum_scal_r. apply Sum_ext. intros; ring. }
    rewrite Sum_swap. apply Sum_ext. intros. apply Sum_scal. }
  assert (E2 : Sum n (fun j => (Sum n (fun k => dP Q j k * x k) + dc Q j) * (x' j - x j)) =
     - Sum n (fun j => res_dual Q x y z j * (x' j - x j)) - Sum m (fun i => z i * Sum n (fun j => dG Q i j * (x' j - x j)))
     - Sum p (fun i => y i * Sum n (fun j => dA Q i j * (x' j - x j)))).
  { rewrite <- G1, <- G2, <- Sum_opp, <- !Sum_minus. apply Sum_ext. intros j Hj. unfold res_dual. ring. }
  assert (E3 : Sum p (fun i => y i * Sum n (fun j => dA Q i j * (x' j - x j))) = Sum p (fun i => y i * res_eq Q x i)).
  { apply Sum_ext. intros i Hi. f_equal. specialize (Fe i Hi). unfold res_eq in *.
    rewrite (Sum_ext n _ (fun j => dA Q i j * x' j - dA Q i j * x j)) by (intros; ring). rewrite Sum_minus. lra. }
  assert (E4 : Sum m (fun i => z i * Sum n (fun j => dG Q i j * (x' j - x j))) <=
               Sum m (fun i => z i * res_in Q x s i) + Sum m (fun i => s i * z i)).
  { rewrite <- Sum_plus. apply Sum_le. intros i Hi.
    replace (z i * res_in Q x s i + s i * z i) with (z i * (res_in Q x s i + s i)) by ring.
    apply Rmult_le_compat_l; auto. specialize (Fi i Hi). unfold res_in.
    rewrite (Sum_ext n _ (fun j => dG Q i j * x' j - dG Q i j * x j)) by (intros; ring). rewrite Sum_minus. lra. }
  rewrite E2, E3 in E. lra.
Qed.

End Duality.

(** Passing the stopping test bounds the distance to the optimal value. *)
Lemma passes_near_optimal Q reltol abstol x y z s x' :
  symmetric Q -> psd_on Q -> (1 <= dm Q)%Z -> (forall i, (0 <= i < dm Q)%Z -> 0 <= z i) ->
  passes Q reltol abstol x y z s -> feasible Q x' ->
  objective Q x - objective Q x' <
    reltol / sqrt 3 * (Euclid (fun i => x' i - x i) (dn Q) + (if Z.eqb (dp Q) 0 then 0 else Euclid y (dp Q)) + Euclid z (dm Q)) +
    IZR (dm Q) * abstol.
Proof.
  intros Hsym Hpsd Hm Hz [T1 [T2 [T3 T4]]] Hf.
  pose proof (weak_duality Q Hsym Hpsd x y z s x' Hf Hz) as W.
  set (tol := reltol / sqrt 3) in *.
  assert (A1 : Sum (dn Q) (fun j => res_dual Q x y z j * (x' j - x j)) <= tol * Euclid (fun i => x' i - x i) (dn Q)).
  { pose proof (Euclid_nonneg (fun i => x' i - x i) (dn Q)).
    eapply Rle_trans; [apply Rle_abs|]. eapply Rle_trans; [apply (Cauchy (dn Q) (res_dual Q x y z) (fun i => x' i - x i))|].
    apply Rmult_le_compat_r; lra. }
  assert (A2 : Sum (dm Q) (fun i => z i * res_in Q x s i) <= tol * Euclid z (dm Q)).
  { pose proof (Euclid_nonneg z (dm Q)).
    eapply Rle_trans; [apply Rle_abs|]. eapply Rle_trans; [apply (Cauchy (dm Q) z (res_in Q x s))|].
    rewrite Rmult_comm. apply Rmult_le_compat_r; lra. }
  assert (A3 : Sum (dp Q) (fun i => y i * res_eq Q x i) <= tol * (if Z.eqb (dp Q) 0 then 0 else Euclid y (dp Q))).
  { destruct (Z.eqb_spec (dp Q) 0) as [E|E].
    - rewrite E. unfold Sum. rewrite zr_nil by lia. simpl. lra.
    - pose proof (Euclid_nonneg y (dp Q)). specialize (T3 E).
      eapply Rle_trans; [apply Rle_abs|]. eapply Rle_trans; [apply (Cauchy (dp Q) y (res_eq Q x))|].
      rewrite Rmult_comm. apply Rmult_le_compat_r; lra. }
  assert (A4 : Sum (dm Q) (fun i => s i * z i) < IZR (dm Q) * abstol).
  { assert (0 < IZR (dm Q)) by (apply (IZR_lt 0); lia). unfold gap in T4.
    apply (Rmult_lt_compat_l (IZR (dm Q))) in T4; auto.
    replace (IZR (dm Q) * (Sum (dm Q) (fun i => s i * z i) / IZR (dm Q))) with (Sum (dm Q) (fun i => s i * z i)) in T4 by (field; lra).
    auto. }
  lra.
Qed.
