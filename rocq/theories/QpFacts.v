(** Consequences of the stopping test and of the start-point specification, about mathematics only. *)
From Coq Require Import ZArith Reals List Lia Lra.
From Verif Require Import Lists QpSpec StepSpec.
Open Scope Z_scope.
Open Scope R_scope.

Lemma tol_nonneg Q rt at_ x y z s : passes Q rt at_ x y z s -> 0 < rt / sqrt 3.
Proof. intros [H _]. pose proof (Euclid_nonneg (res_dual Q x y z) (dn Q)). lra. Qed.

Section Facts.
Variable Q : QPdata.
Notation n := (dn Q).
Notation m := (dm Q).
Notation p := (dp Q).

Lemma transpose_G u v : Sum n (fun j => Sum m (fun i => dG Q i j * u i) * v j) = Sum m (fun i => u i * Sum n (fun j => dG Q i j * v j)).
Proof.
  rewrite (Sum_ext n _ (fun j => Sum m (fun i => u i * (dG Q i j * v j)))).
  2:{ intros j Hj. rewrite <- Sum_scal_r. apply Sum_ext. intros; ring. }
  rewrite Sum_swap. apply Sum_ext. intros. apply Sum_scal.
Qed.
Lemma transpose_A u v : Sum n (fun j => Sum p (fun i => dA Q i j * u i) * v j) = Sum p (fun i => u i * Sum n (fun j => dA Q i j * v j)).
Proof.
  rewrite (Sum_ext n _ (fun j => Sum p (fun i => u i * (dA Q i j * v j)))).
  2:{ intros j Hj. rewrite <- Sum_scal_r. apply Sum_ext. intros; ring. }
  rewrite Sum_swap. apply Sum_ext. intros. apply Sum_scal.
Qed.

(** ** Feasibility up to the tolerance *)

Lemma passes_feasible rt at_ x y z s : (forall i, (0 <= i < m)%Z -> 0 <= s i) -> passes Q rt at_ x y z s ->
  (forall i, (0 <= i < m)%Z -> Sum n (fun j => dG Q i j * x j) < dh Q i + rt / sqrt 3) /\
  (forall k, (0 <= k < p)%Z -> Rabs (Sum n (fun j => dA Q k j * x j) - db Q k) < rt / sqrt 3).
Proof.
  intros Hs [_ [H2 [H3 _]]]. split; intros i Hi.
  - pose proof (Euclid_entry (res_in Q x s) m i Hi) as E. pose proof (Hs i Hi).
    assert (Rabs (res_in Q x s i) < rt / sqrt 3) by lra.
    pose proof (Rle_abs (- res_in Q x s i)) as G. rewrite Rabs_Ropp in G. unfold res_in in *. lra.
  - pose proof (Euclid_entry (res_eq Q x) p i Hi) as E. specialize (H3 ltac:(lia)). rewrite Rabs_minus_sym.
    change (Rabs (res_eq Q x i) < rt / sqrt 3). lra.
Qed.

(** ** Certificates *)

(** (y, z) proves that Ax = b, Gx <= h has no solution, as far as its value b'y + h'z is below 0. *)
Record infeasibility_certificate (y z : Z -> R) : Prop := mkInfeas {
  ic_z : forall i, (0 <= i < m)%Z -> 0 <= z i;
  ic_0 : forall j, (0 <= j < n)%Z -> Sum m (fun i => dG Q i j * z i) + Sum p (fun k => dA Q k j * y k) = 0
}.
Definition certificate_value (y z : Z -> R) : R := Sum m (fun i => dh Q i * z i) + Sum p (fun k => db Q k * y k).

Lemma certificate_infeasible y z x : infeasibility_certificate y z -> certificate_value y z < 0 -> ~ feasible Q x.
Proof.
  intros [Hz H0] Hv [Fe Fi]. unfold certificate_value in Hv.
  assert (E : Sum n (fun j => (Sum m (fun i => dG Q i j * z i) + Sum p (fun k => dA Q k j * y k)) * x j) = 0).
  { apply Sum_zero. intros j Hj. rewrite H0 by auto. ring. }
  rewrite (Sum_ext n _ (fun j => Sum m (fun i => dG Q i j * z i) * x j + Sum p (fun k => dA Q k j * y k) * x j)) in E by (intros; ring).
  rewrite Sum_plus, transpose_G, transpose_A in E.
  assert (E1 : Sum m (fun i => z i * Sum n (fun j => dG Q i j * x j)) <= Sum m (fun i => dh Q i * z i)).
  { apply Sum_le. intros i Hi. rewrite (Rmult_comm (dh Q i)). apply Rmult_le_compat_l; auto. }
  assert (E2 : Sum p (fun i => y i * Sum n (fun j => dA Q i j * x j)) = Sum p (fun k => db Q k * y k)).
  { apply Sum_ext. intros i Hi. specialize (Fe i Hi). unfold res_eq in Fe. replace (Sum n (fun j => dA Q i j * x j)) with (db Q i) by lra. ring. }
  lra.
Qed.

Lemma passes_certificate rt at_ x y z s y' z' : (forall i, (0 <= i < m)%Z -> 0 <= s i) -> passes Q rt at_ x y z s ->
  infeasibility_certificate y' z' ->
  - certificate_value y' z' <= rt / sqrt 3 * (Euclid z' m + (if Z.eqb p 0 then 0 else Euclid y' p)).
Proof.
  intros Hs HP [Hz H0]. pose proof (tol_nonneg _ _ _ _ _ _ _ HP) as Ht. destruct HP as [_ [H2 [H3 _]]]. unfold certificate_value.
  set (tol := rt / sqrt 3) in *.
  assert (E : Sum n (fun j => (Sum m (fun i => dG Q i j * z' i) + Sum p (fun k => dA Q k j * y' k)) * x j) = 0).
  { apply Sum_zero. intros j Hj. rewrite H0 by auto. ring. }
  rewrite (Sum_ext n _ (fun j => Sum m (fun i => dG Q i j * z' i) * x j + Sum p (fun k => dA Q k j * y' k) * x j)) in E by (intros; ring).
  rewrite Sum_plus, transpose_G, transpose_A in E.
  assert (E1 : Sum m (fun i => dh Q i * z' i) = Sum m (fun i => z' i * res_in Q x s i) + Sum m (fun i => z' i * s i) +
    Sum m (fun i => z' i * Sum n (fun j => dG Q i j * x j))).
  { rewrite <- !Sum_plus. apply Sum_ext. intros i Hi. unfold res_in. ring. }
  assert (E2 : Sum p (fun k => db Q k * y' k) = Sum p (fun k => y' k * res_eq Q x k) + Sum p (fun i => y' i * Sum n (fun j => dA Q i j * x j))).
  { rewrite <- !Sum_plus. apply Sum_ext. intros i Hi. unfold res_eq. ring. }
  assert (E3 : 0 <= Sum m (fun i => z' i * s i)) by (apply Sum_nonneg; intros i Hi; apply Rmult_le_pos; auto).
  assert (E4 : - Sum m (fun i => z' i * res_in Q x s i) <= tol * Euclid z' m).
  { rewrite <- Sum_opp. rewrite (Sum_ext m _ (fun i => z' i * - res_in Q x s i)) by (intros; ring).
    eapply Rle_trans; [apply Rle_abs|]. eapply Rle_trans; [apply (Cauchy m z' (fun i => - res_in Q x s i))|].
    rewrite Rmult_comm. apply Rmult_le_compat_r; [apply Euclid_nonneg|].
    rewrite (Euclid_ext _ (fun i => -1 * res_in Q x s i)) by (intros; ring). rewrite Euclid_scal, Rabs_left by lra. lra. }
  assert (E5 : - Sum p (fun k => y' k * res_eq Q x k) <= tol * (if Z.eqb p 0 then 0 else Euclid y' p)).
  { destruct (Z.eqb_spec p 0) as [Ep|Ep].
    - rewrite Ep. unfold Sum. rewrite zr_nil by lia. simpl. lra.
    - specialize (H3 Ep). rewrite <- Sum_opp. rewrite (Sum_ext p _ (fun i => y' i * - res_eq Q x i)) by (intros; ring).
      eapply Rle_trans; [apply Rle_abs|]. eapply Rle_trans; [apply (Cauchy p y' (fun i => - res_eq Q x i))|].
      rewrite Rmult_comm. apply Rmult_le_compat_r; [apply Euclid_nonneg|].
      rewrite (Euclid_ext _ (fun i => -1 * res_eq Q x i)) by (intros; ring). rewrite Euclid_scal, Rabs_left by lra. lra. }
  lra.
Qed.

(** A direction along which the objective decreases without end over the feasible set. *)
Record unbounded_direction (d : Z -> R) : Prop := mkUnb {
  ud_P : forall i, (0 <= i < n)%Z -> Sum n (fun j => dP Q i j * d j) = 0;
  ud_A : forall k, (0 <= k < p)%Z -> Sum n (fun j => dA Q k j * d j) = 0;
  ud_G : forall i, (0 <= i < m)%Z -> Sum n (fun j => dG Q i j * d j) <= 0
}.

Lemma unbounded x d t : symmetric Q -> feasible Q x -> unbounded_direction d -> 0 <= t ->
  feasible Q (fun j => x j + t * d j) /\
  objective Q (fun j => x j + t * d j) = objective Q x + t * Sum n (fun j => dc Q j * d j).
Proof.
  intros HS [Fe Fi] [HP HA HG] Ht. split; [split|].
  - intros i Hi. unfold res_eq. rewrite (Sum_ext n _ (fun j => dA Q i j * x j + t * (dA Q i j * d j))) by (intros; ring).
    rewrite Sum_plus, Sum_scal, HA by auto. specialize (Fe i Hi). unfold res_eq in Fe. lra.
  - intros i Hi. rewrite (Sum_ext n _ (fun j => dG Q i j * x j + t * (dG Q i j * d j))) by (intros; ring).
    rewrite Sum_plus, Sum_scal. specialize (Fi i Hi). specialize (HG i Hi).
    assert (t * Sum n (fun j => dG Q i j * d j) <= 0).
    { replace 0 with (t * 0) by ring. apply Rmult_le_compat_l; lra. }
    lra.
  - pose proof (objective_diff Q HS x (fun j => x j + t * d j)) as E. cbv beta in E.
    rewrite (Sum_zero n (fun i => (x i + t * d i - x i) * _)) in E.
    2:{ intros i Hi. rewrite (Sum_ext n _ (fun j => t * (dP Q i j * d j))) by (intros; ring). rewrite Sum_scal, HP by auto. ring. }
    rewrite (Sum_ext n _ (fun j => t * (d j * Sum n (fun k => dP Q j k * x k)) + t * (dc Q j * d j))) in E by (intros; ring).
    rewrite Sum_plus, !Sum_scal in E.
    assert (E0 : Sum n (fun j => d j * Sum n (fun k => dP Q j k * x k)) = 0).
    { rewrite (Sum_ext n _ (fun j => Sum n (fun k => x k * (dP Q k j * d j)))).
      2:{ intros j Hj. rewrite <- Sum_scal. apply Sum_ext. intros k Hk. rewrite (HS j k) by auto. ring. }
      rewrite Sum_swap. apply Sum_zero. intros k Hk. rewrite Sum_scal, HP by auto. ring. }
    rewrite E0 in E. lra.
Qed.

Lemma passes_unbounded rt at_ x y z s d : symmetric Q -> (forall i, (0 <= i < m)%Z -> 0 <= z i) -> passes Q rt at_ x y z s ->
  unbounded_direction d -> - Sum n (fun j => dc Q j * d j) <= rt / sqrt 3 * Euclid d n.
Proof.
  intros HS Hz [H1 _] [HP HA HG].
  assert (E0 : Sum n (fun j => d j * Sum n (fun k => dP Q j k * x k)) = 0).
  { rewrite (Sum_ext n _ (fun j => Sum n (fun k => x k * (dP Q k j * d j)))).
    2:{ intros j Hj. rewrite <- Sum_scal. apply Sum_ext. intros k Hk. rewrite (HS j k) by auto. ring. }
    rewrite Sum_swap. apply Sum_zero. intros k Hk. rewrite Sum_scal, HP by auto. ring. }
  assert (E : - Sum n (fun j => dc Q j * d j) = Sum n (fun j => res_dual Q x y z j * d j) +
     Sum m (fun i => z i * Sum n (fun j => dG Q i j * d j)) + Sum p (fun k => y k * Sum n (fun j => dA Q k j * d j))).
  { rewrite <- transpose_G, <- transpose_A, <- !Sum_plus.
    rewrite (Sum_ext n (fun j => res_dual Q x y z j * d j + _ + _) (fun j => - (dc Q j * d j) - d j * Sum n (fun k => dP Q j k * x k)))
      by (intros j Hj; unfold res_dual; ring).
    rewrite Sum_minus, E0, Sum_opp. ring. }
  assert (E1 : Sum m (fun i => z i * Sum n (fun j => dG Q i j * d j)) <= 0).
  { rewrite <- (Sum_zero m (fun _ => 0)) by auto. apply Sum_le. intros i Hi. replace 0 with (z i * 0) by ring. apply Rmult_le_compat_l; auto. }
  assert (E2 : Sum p (fun k => y k * Sum n (fun j => dA Q k j * d j)) = 0).
  { apply Sum_zero. intros k Hk. rewrite HA by auto. ring. }
  assert (E3 : Sum n (fun j => res_dual Q x y z j * d j) <= rt / sqrt 3 * Euclid d n).
  { eapply Rle_trans; [apply Rle_abs|]. eapply Rle_trans; [apply (Cauchy n (res_dual Q x y z) d)|].
    apply Rmult_le_compat_r; [apply Euclid_nonneg|lra]. }
  lra.
Qed.

(** ** The starting point *)

(** Objective plus half the squared slack. *)
Definition start_objective (x : Z -> R) : R := objective Q x + 1 / 2 * Sum m (fun i => slack Q x i * slack Q x i).

Lemma start_interior e v : start_point Q e v -> interior_vars Q v.
Proof.
  intros [_ [a [[A _] S]] [b [[B _] T]]] i Hi. rewrite S, T by auto. specialize (A i Hi). specialize (B i Hi).
  destruct (Rlt_dec 0 a); destruct (Rlt_dec b 0); lra.
Qed.

Lemma start_optimal e v x' : (0 <= n)%Z -> (0 <= m)%Z -> (0 <= p)%Z -> symmetric Q -> psd_on Q ->
  (forall a, (0 <= a < n + p + m)%Z -> e a = 0) -> start_point Q e v ->
  (forall k, (0 <= k < p)%Z -> res_eq Q (vx v) k = 0) /\
  ((forall k, (0 <= k < p)%Z -> res_eq Q x' k = 0) -> start_objective (vx v) <= start_objective x').
Proof.
  intros Hn Hm Hp HS HC He [[t [X [Y Z_]]] _ _].
  assert (Y' : forall k, (0 <= k < p)%Z -> res_eq Q (vx v) k = 0).
  { intros k Hk. specialize (Y k Hk). rewrite He in Y by lia. unfold res_eq. lra. }
  split; auto. intros Fx.
  assert (T : forall i, (0 <= i < m)%Z -> t i = - slack Q (vx v) i).
  { intros i Hi. specialize (Z_ i Hi). rewrite He in Z_ by lia. unfold slack. lra. }
  set (x := vx v) in *. set (d := fun j => x' j - x j).
  pose proof (objective_diff Q HS x x') as E. pose proof (HC d) as HP. cbv beta delta [d] in HP.
  assert (E1 : Sum n (fun j => (Sum n (fun k => dP Q j k * x k) + dc Q j) * (x' j - x j)) =
    Sum m (fun i => slack Q x i * Sum n (fun j => dG Q i j * d j)) - Sum p (fun k => vy v k * Sum n (fun j => dA Q k j * d j))).
  { rewrite <- transpose_G, <- transpose_A, <- Sum_minus. apply Sum_ext. intros j Hj. specialize (X j Hj). rewrite He in X by lia.
    rewrite (Sum_ext m _ (fun i => - (dG Q i j * slack Q x i))) in X by (intros i Hi; rewrite T by auto; ring).
    rewrite Sum_opp in X. unfold d. replace (Sum n (fun k => dP Q j k * x k) + dc Q j) with
      (Sum m (fun i => dG Q i j * slack Q x i) - Sum p (fun k => dA Q k j * vy v k)) by lra. ring. }
  assert (E2 : Sum p (fun k => vy v k * Sum n (fun j => dA Q k j * d j)) = 0).
  { apply Sum_zero. intros k Hk. unfold d. rewrite (Sum_ext n _ (fun j => dA Q k j * x' j - dA Q k j * x j)) by (intros; ring).
    rewrite Sum_minus. specialize (Fx k Hk). specialize (Y' k Hk). unfold res_eq in *.
    replace (Sum n (fun j => dA Q k j * x' j)) with (db Q k) by lra. replace (Sum n (fun j => dA Q k j * x j)) with (db Q k) by lra. ring. }
  assert (E3 : forall i, slack Q x' i = slack Q x i - Sum n (fun j => dG Q i j * d j)).
  { intros i. unfold slack, d. rewrite (Sum_ext n (fun j => dG Q i j * (x' j - x j)) (fun j => dG Q i j * x' j - dG Q i j * x j)) by (intros; ring).
    rewrite Sum_minus. ring. }
  assert (E4 : Sum m (fun i => slack Q x' i * slack Q x' i) = Sum m (fun i => slack Q x i * slack Q x i) -
    2 * Sum m (fun i => slack Q x i * Sum n (fun j => dG Q i j * d j)) +
    Sum m (fun i => Sum n (fun j => dG Q i j * d j) * Sum n (fun j => dG Q i j * d j))).
  { rewrite <- Sum_scal, <- Sum_minus, <- Sum_plus. apply Sum_ext. intros i Hi. rewrite E3. ring. }
  assert (E5 : 0 <= Sum m (fun i => Sum n (fun j => dG Q i j * d j) * Sum n (fun j => dG Q i j * d j)))
    by (apply Sum_nonneg; intros; apply Rle_0_sqr).
  unfold start_objective. rewrite E4. lra.
Qed.

(** If the slack at x is already positive it is taken as it is, otherwise every s is at least 1; likewise z. *)
Lemma start_shift e v : start_point Q e v ->
  (forall i, (0 <= i < m)%Z -> vs v i = slack Q (vx v) i) \/ (forall i, (0 <= i < m)%Z -> 1 <= vs v i).
Proof.
  intros [_ [a [[A _] S]] _]. destruct (Rlt_dec 0 a); [left|right]; intros i Hi; rewrite S by auto; specialize (A i Hi); lra.
Qed.
End Facts.
