(** Turning and shifting the variables of a quadratic program, mixing its equalities by a rotation and renaming its
    inequalities, and what that does to the method of [StepSpec]. *)
From Coq Require Import ZArith Reals List Lia Lra Bool.
From Verif Require Import Lists QpSpec StepSpec StepFacts StepUniq QuasiDef Relabel.
Open Scope Z_scope.

Definition delta (i j : Z) : R := if i =? j then 1%R else 0%R.

(** The columns and the rows of T are orthonormal. *)
Definition orthogonal (k : Z) (T : Z -> Z -> R) : Prop :=
  (forall i j, 0 <= i < k -> 0 <= j < k -> Sum k (fun a => T a i * T a j)%R = delta i j) /\
  (forall a b, 0 <= a < k -> 0 <= b < k -> Sum k (fun i => T a i * T b i)%R = delta a b).

(** T'v *)
Definition turn (k : Z) (T : Z -> Z -> R) (v : Z -> R) (j : Z) : R := Sum k (fun a => T a j * v a)%R.

(** Q' is Q in the variables x' = T'(x - x0), its equalities multiplied by U', its inequalities renamed by h. *)
Record moved (T : Z -> Z -> R) (x0 : Z -> R) (U : Z -> Z -> R) (h : Z -> Z) (Q Q' : QPdata) : Prop := mkMoved {
  md_n : dn Q' = dn Q; md_m : dm Q' = dm Q; md_p : dp Q' = dp Q;
  md_T : orthogonal (dn Q) T; md_U : orthogonal (dp Q) U; md_o : order_of (dm Q) h;
  md_P : forall i j, 0 <= i < dn Q -> 0 <= j < dn Q -> dP Q' i j = turn (dn Q) T (fun a => turn (dn Q) T (fun b => dP Q a b) j) i;
  md_A : forall k j, 0 <= k < dp Q -> 0 <= j < dn Q -> dA Q' k j = turn (dp Q) U (fun l => turn (dn Q) T (fun b => dA Q l b) j) k;
  md_G : forall i j, 0 <= i < dm Q -> 0 <= j < dn Q -> dG Q' i j = turn (dn Q) T (fun b => dG Q (h i) b) j;
  md_c : forall j, 0 <= j < dn Q -> dc Q' j = turn (dn Q) T (fun a => (dc Q a + Sum (dn Q) (fun b => dP Q a b * x0 b))%R) j;
  md_b : forall k, 0 <= k < dp Q -> db Q' k = turn (dp Q) U (fun l => (db Q l - Sum (dn Q) (fun b => dA Q l b * x0 b))%R) k;
  md_h : forall i, 0 <= i < dm Q -> dh Q' i = (dh Q (h i) - Sum (dn Q) (fun b => dG Q (h i) b * x0 b))%R
}.

(** The same point in the new variables. *)
Definition moved_point (T : Z -> Z -> R) (x0 : Z -> R) (U : Z -> Z -> R) (h : Z -> Z) (n p : Z) (v : vars) : vars :=
  mkVars (turn n T (fun a => (vx v a - x0 a)%R)) (turn p U (vy v)) (fun i => vz v (h i)) (fun i => vs v (h i)).

Open Scope R_scope.

Section Turn.
Variables (k : Z) (T : Z -> Z -> R).
Hypothesis HT : orthogonal k T.

Lemma turn_ext v w j : (forall a, (0 <= a < k)%Z -> v a = w a) -> turn k T v j = turn k T w j.
Proof. intros H. apply Sum_ext. intros a Ha. rewrite H by auto. reflexivity. Qed.
Lemma turn_plus v w j : turn k T (fun a => v a + w a) j = turn k T v j + turn k T w j.
Proof. unfold turn. rewrite <- Sum_plus. apply Sum_ext. intros; ring. Qed.
Lemma turn_minus v w j : turn k T (fun a => v a - w a) j = turn k T v j - turn k T w j.
Proof. unfold turn. rewrite <- Sum_minus. apply Sum_ext. intros; ring. Qed.
Lemma turn_opp v j : turn k T (fun a => - v a) j = - turn k T v j.
Proof. unfold turn. rewrite <- Sum_opp. apply Sum_ext. intros; ring. Qed.
Lemma turn_scal c v j : turn k T (fun a => c * v a) j = c * turn k T v j.
Proof. unfold turn. rewrite <- Sum_scal. apply Sum_ext. intros; ring. Qed.
Lemma turn_Sum l f j : turn k T (fun a => Sum l (f a)) j = Sum l (fun b => turn k T (fun a => f a b) j).
Proof. unfold turn. rewrite Sum_swap. apply Sum_ext. intros a Ha. rewrite Sum_scal. reflexivity. Qed.

(** T (T' v) = v *)
Lemma back v b : (0 <= b < k)%Z -> Sum k (fun j => T b j * turn k T v j) = v b.
Proof.
  intros Hb. unfold turn. rewrite (Sum_ext k _ (fun j => Sum k (fun a => v a * (T b j * T a j)))).
  2:{ intros j Hj. rewrite <- Sum_scal. apply Sum_ext. intros; ring. }
  rewrite Sum_swap. rewrite (Sum_ext k _ (fun a => v a * delta b a)).
  2:{ intros a Ha. rewrite Sum_scal, (proj2 HT) by auto. reflexivity. }
  rewrite (Sum_one k _ b Hb).
  - unfold delta. rewrite Z.eqb_refl. ring.
  - intros i Hi Hne. unfold delta. destruct (Z.eqb_spec b i); [congruence|ring].
Qed.

(** (T' v) . (T' w) = v . w *)
Lemma turn_dot v w : Sum k (fun j => turn k T v j * turn k T w j) = Sum k (fun a => v a * w a).
Proof.
  rewrite (Sum_ext k _ (fun j => Sum k (fun a => v a * (T a j * turn k T w j)))).
  2:{ intros j Hj. unfold turn at 1. rewrite <- Sum_scal_r. apply Sum_ext. intros; ring. }
  rewrite Sum_swap. apply Sum_ext. intros a Ha. rewrite Sum_scal, back by auto. reflexivity.
Qed.

Lemma turn_Euclid v : Euclid (turn k T v) k = Euclid v k.
Proof. unfold Euclid. rewrite turn_dot. reflexivity. Qed.

(** Every vector is a turned one. *)
Lemma turn_onto v j : (0 <= j < k)%Z -> turn k T (fun a => Sum k (fun i => T a i * v i)) j = v j.
Proof.
  intros Hj. unfold turn. rewrite (Sum_ext k _ (fun a => Sum k (fun i => v i * (T a j * T a i)))).
  2:{ intros a Ha. rewrite <- Sum_scal. apply Sum_ext. intros; ring. }
  rewrite Sum_swap. rewrite (Sum_ext k _ (fun i => v i * delta j i)).
  2:{ intros i Hi. rewrite Sum_scal, (proj1 HT) by auto. reflexivity. }
  rewrite (Sum_one k _ j Hj).
  - unfold delta. rewrite Z.eqb_refl. ring.
  - intros i Hi Hne. unfold delta. destruct (Z.eqb_spec j i); [congruence|ring].
Qed.
End Turn.

Lemma turn_swap k T l U f c j : turn k T (fun a => turn l U (f a) c) j = turn l U (fun b => turn k T (fun a => f a b) j) c.
Proof.
  unfold turn. rewrite (Sum_ext k _ (fun a => Sum l (fun b => T a j * (U b c * f a b)))) by (intros; rewrite Sum_scal; reflexivity).
  rewrite Sum_swap. apply Sum_ext. intros b Hb. rewrite <- Sum_scal. apply Sum_ext. intros; ring.
Qed.

Section Motion.
Variables (T : Z -> Z -> R) (x0 : Z -> R) (U : Z -> Z -> R) (h : Z -> Z) (Q Q' : QPdata).
Hypothesis HQ : moved T x0 U h Q Q'.
Hypothesis Dn : (0 <= dn Q)%Z.
Hypothesis Dm : (0 <= dm Q)%Z.
Hypothesis Dp : (0 <= dp Q)%Z.
Notation n := (dn Q).
Notation m := (dm Q).
Notation p := (dp Q).
Notation tn := (turn n T).
Notation tu := (turn p U).
Notation mov := (moved_point T x0 U h n p).
(** Directions do not shift. *)
Definition dmov (v : vars) : vars := mkVars (tn (vx v)) (tu (vy v)) (fun i => vz v (h i)) (fun i => vs v (h i)).
Let HT := md_T _ _ _ _ _ _ HQ.
Let HU := md_U _ _ _ _ _ _ HQ.
Let HO := md_o _ _ _ _ _ _ HQ.
Let hi i : (0 <= i < m)%Z -> (0 <= h i < m)%Z := proj1 HO i.

Lemma mv_sum_P j w : (0 <= j < n)%Z -> Sum n (fun c => dP Q' j c * tn w c) = tn (fun a => Sum n (fun b => dP Q a b * w b)) j.
Proof.
  intros Hj. rewrite (Sum_ext n _ (fun c => tn (fun b => tn (fun a => dP Q a b) j) c * tn w c)).
  2:{ intros c Hc. rewrite (md_P _ _ _ _ _ _ HQ) by auto. f_equal. apply turn_swap. }
  rewrite (turn_dot n T HT), turn_Sum. apply Sum_ext. intros b Hb. unfold turn. rewrite <- Sum_scal_r. apply Sum_ext. intros; ring.
Qed.
Lemma mv_sum_A k w : (0 <= k < p)%Z -> Sum n (fun c => dA Q' k c * tn w c) = tu (fun l => Sum n (fun b => dA Q l b * w b)) k.
Proof.
  intros Hk. rewrite (Sum_ext n _ (fun c => tn (fun b => tu (fun l => dA Q l b) k) c * tn w c)).
  2:{ intros c Hc. rewrite (md_A _ _ _ _ _ _ HQ) by auto. f_equal. apply turn_swap. }
  rewrite (turn_dot n T HT), turn_Sum. apply Sum_ext. intros b Hb. unfold turn. rewrite <- Sum_scal_r. apply Sum_ext. intros; ring.
Qed.
Lemma mv_sum_G i w : (0 <= i < m)%Z -> Sum n (fun c => dG Q' i c * tn w c) = Sum n (fun b => dG Q (h i) b * w b).
Proof.
  intros Hi. rewrite (Sum_ext n _ (fun c => tn (fun b => dG Q (h i) b) c * tn w c)) by (intros c Hc; rewrite (md_G _ _ _ _ _ _ HQ) by auto; reflexivity).
  apply (turn_dot n T HT).
Qed.
Lemma mv_sum_At j y : (0 <= j < n)%Z -> Sum p (fun k => dA Q' k j * tu y k) = tn (fun b => Sum p (fun l => dA Q l b * y l)) j.
Proof.
  intros Hj. rewrite (Sum_ext p _ (fun k => tu (fun l => tn (fun b => dA Q l b) j) k * tu y k)) by (intros c Hc; rewrite (md_A _ _ _ _ _ _ HQ) by auto; reflexivity).
  rewrite (turn_dot p U HU), turn_Sum. apply Sum_ext. intros b Hb. unfold turn. rewrite <- Sum_scal_r. apply Sum_ext. intros; ring.
Qed.
Lemma mv_sum_Gt j z : (0 <= j < n)%Z -> Sum m (fun k => dG Q' k j * z (h k)) = tn (fun b => Sum m (fun l => dG Q l b * z l)) j.
Proof.
  intros Hj. rewrite (Sum_ext m _ (fun k => tn (fun b => dG Q (h k) b) j * z (h k))) by (intros c Hc; rewrite (md_G _ _ _ _ _ _ HQ) by auto; reflexivity).
  rewrite <- (Sum_order m h (fun l => tn (fun b => dG Q l b) j * z l) HO), turn_Sum. apply Sum_ext. intros b Hb. unfold turn. rewrite <- Sum_scal_r.
  apply Sum_ext. intros; ring.
Qed.

Lemma mv_dual v j : (0 <= j < n)%Z -> res_dual Q' (vx (mov v)) (vy (mov v)) (vz (mov v)) j = tn (res_dual Q (vx v) (vy v) (vz v)) j.
Proof.
  intros Hj. unfold res_dual. cbn [moved_point vx vy vz vs]. rewrite (md_n _ _ _ _ _ _ HQ), (md_m _ _ _ _ _ _ HQ), (md_p _ _ _ _ _ _ HQ).
  rewrite mv_sum_P, mv_sum_At, (mv_sum_Gt j (vz v)), (md_c _ _ _ _ _ _ HQ) by auto.
  rewrite <- !turn_opp, <- !turn_minus. apply turn_ext. intros a Ha.
  rewrite (Sum_ext n (fun b => dP Q a b * (vx v b - x0 b)) (fun b => dP Q a b * vx v b - dP Q a b * x0 b)) by (intros; ring).
  rewrite Sum_minus. ring.
Qed.
Lemma mv_eq v k : (0 <= k < p)%Z -> res_eq Q' (vx (mov v)) k = tu (res_eq Q (vx v)) k.
Proof.
  intros Hk. unfold res_eq. cbn [moved_point vx]. rewrite (md_n _ _ _ _ _ _ HQ), mv_sum_A, (md_b _ _ _ _ _ _ HQ) by auto.
  rewrite <- turn_minus. apply turn_ext. intros l Hl.
  rewrite (Sum_ext n (fun b => dA Q l b * (vx v b - x0 b)) (fun b => dA Q l b * vx v b - dA Q l b * x0 b)) by (intros; ring).
  rewrite Sum_minus. ring.
Qed.
Lemma mv_slack v i : (0 <= i < m)%Z -> slack Q' (vx (mov v)) i = slack Q (vx v) (h i).
Proof.
  intros Hi. unfold slack. cbn [moved_point vx]. rewrite (md_n _ _ _ _ _ _ HQ), mv_sum_G, (md_h _ _ _ _ _ _ HQ) by auto.
  rewrite (Sum_ext n (fun b => dG Q (h i) b * (vx v b - x0 b)) (fun b => dG Q (h i) b * vx v b - dG Q (h i) b * x0 b)) by (intros; ring).
  rewrite Sum_minus. ring.
Qed.
Lemma mv_in v i : (0 <= i < m)%Z -> res_in Q' (vx (mov v)) (vs (mov v)) i = res_in Q (vx v) (vs v) (h i).
Proof.
  intros Hi. pose proof (mv_slack v i Hi) as E. unfold slack in E. unfold res_in. cbn [moved_point vs] in *. lra.
Qed.
Lemma mv_gap v : gap Q' (vs (mov v)) (vz (mov v)) = gap Q (vs v) (vz v).
Proof.
  unfold gap. cbn [moved_point vz vs]. rewrite (md_m _ _ _ _ _ _ HQ). f_equal. symmetry. apply (Sum_order m h (fun i => vs v i * vz v i) HO).
Qed.

(** The objective differs by its value at x0. *)
Lemma mv_objective v : symmetric Q -> objective Q' (vx (mov v)) = objective Q (vx v) - objective Q x0.
Proof.
  intros HS. rewrite (objective_diff Q HS x0 (vx v)). unfold objective at 1. cbn [moved_point vx]. rewrite (md_n _ _ _ _ _ _ HQ).
  rewrite (Sum_ext n (fun i => tn (fun a => vx v a - x0 a) i * _)
    (fun i => tn (fun a => vx v a - x0 a) i * tn (fun a => Sum n (fun b => dP Q a b * (vx v b - x0 b))) i))
    by (intros i Hi; rewrite mv_sum_P by auto; reflexivity).
  rewrite (Sum_ext n (fun i => dc Q' i * _) (fun i => tn (fun a => dc Q a + Sum n (fun b => dP Q a b * x0 b)) i * tn (fun a => vx v a - x0 a) i))
    by (intros i Hi; rewrite (md_c _ _ _ _ _ _ HQ) by auto; reflexivity).
  rewrite !(turn_dot n T HT). rewrite Rplus_comm. f_equal. apply Sum_ext. intros; ring.
Qed.

Lemma mv_norms v : Euclid (res_dual Q' (vx (mov v)) (vy (mov v)) (vz (mov v))) (dn Q') = Euclid (res_dual Q (vx v) (vy v) (vz v)) n /\
  Euclid (res_eq Q' (vx (mov v))) (dp Q') = Euclid (res_eq Q (vx v)) p /\
  Euclid (res_in Q' (vx (mov v)) (vs (mov v))) (dm Q') = Euclid (res_in Q (vx v) (vs v)) m.
Proof.
  rewrite (md_n _ _ _ _ _ _ HQ), (md_m _ _ _ _ _ _ HQ), (md_p _ _ _ _ _ _ HQ). split; [|split].
  - rewrite <- (turn_Euclid n T HT (res_dual Q (vx v) (vy v) (vz v))). apply Euclid_ext. intros i Hi. apply mv_dual. auto.
  - rewrite <- (turn_Euclid p U HU (res_eq Q (vx v))). apply Euclid_ext. intros i Hi. apply mv_eq. auto.
  - rewrite <- (Euclid_order m h (res_in Q (vx v) (vs v)) HO). apply Euclid_ext. intros i Hi. apply mv_in. auto.
Qed.

Lemma mv_passes rt at_ v : passes_at Q' rt at_ (mov v) <-> passes_at Q rt at_ v.
Proof.
  unfold passes_at, passes. destruct (mv_norms v) as [-> [-> ->]]. rewrite mv_gap, (md_p _ _ _ _ _ _ HQ). tauto.
Qed.

Lemma mv_symmetric : symmetric Q -> symmetric Q'.
Proof.
  intros H i j Hi Hj. rewrite (md_n _ _ _ _ _ _ HQ) in *. rewrite !(md_P _ _ _ _ _ _ HQ) by auto.
  unfold turn. rewrite (Sum_ext n _ (fun a => Sum n (fun b => T a i * (T b j * dP Q a b)))) by (intros; rewrite Sum_scal; reflexivity).
  rewrite Sum_swap. apply Sum_ext. intros b Hb. rewrite <- Sum_scal. apply Sum_ext. intros a Ha. rewrite (H a b) by auto. ring.
Qed.

Lemma mv_convex lam : strongly_convex Q lam -> strongly_convex Q' lam.
Proof.
  intros HC v. rewrite (md_n _ _ _ _ _ _ HQ). set (w := fun a => Sum n (fun i => T a i * v i)).
  assert (E : forall j, (0 <= j < n)%Z -> v j = tn w j) by (intros j Hj; symmetry; apply (turn_onto n T HT); auto).
  rewrite (Sum_ext n (fun i => v i * v i) (fun i => tn w i * tn w i)) by (intros i Hi; rewrite <- E by auto; reflexivity).
  rewrite (Sum_ext n (fun i => v i * _) (fun i => tn w i * tn (fun a => Sum n (fun b => dP Q a b * w b)) i)).
  2:{ intros i Hi. rewrite <- (E i) by auto. f_equal. rewrite <- mv_sum_P by auto. apply Sum_ext. intros c Hc. rewrite <- E by auto. reflexivity. }
  rewrite !(turn_dot n T HT). apply HC.
Qed.

Lemma mv_direction e v rc d : no_change Q e -> direction Q e v rc d -> direction Q' (fun _ => 0) (mov v) (fun i => rc (h i)) (dmov d).
Proof.
  intros He [X Y Z_ S]. split; rewrite ?(md_n _ _ _ _ _ _ HQ), ?(md_m _ _ _ _ _ _ HQ), ?(md_p _ _ _ _ _ _ HQ).
  - intros j Hj. rewrite mv_dual by auto. cbn [dmov vx vy vz vs].
    rewrite mv_sum_P, mv_sum_At, (mv_sum_Gt j (vz d)) by auto. rewrite Rmult_0_l, Rplus_0_r, <- !turn_plus. apply turn_ext. intros a Ha.
    rewrite <- (X a Ha), He by lia. ring.
  - intros k Hk. rewrite mv_eq by auto. cbn [dmov vx vy]. rewrite mv_sum_A by auto. rewrite Rmult_0_l, Rplus_0_r. apply turn_ext. intros l Hl.
    rewrite <- (Y l Hl), He by lia. ring.
  - intros i Hi. rewrite mv_in by auto. cbn [dmov vx vz vs]. rewrite mv_sum_G by auto. pose proof (hi i Hi) as Hh.
    rewrite <- (Z_ (h i) Hh), He by lia. ring.
  - intros i Hi. cbn [moved_point dmov vz vs]. apply S. auto.
Qed.

Lemma mv_reduction v d ap ad : reduction Q' (mov v) (dmov d) ap ad = reduction Q v d ap ad.
Proof.
  unfold reduction. rewrite (md_m _ _ _ _ _ _ HQ). cbn [moved_point dmov vz vs]. f_equal.
  - symmetry. apply (Sum_order m h (fun i => (vs v i + ap * vs d i) * (vz v i + ad * vz d i)) HO).
  - symmetry. apply (Sum_order m h (fun i => vs v i * vz v i) HO).
Qed.

Lemma mv_step e sd sg v v' ap ad sg' : no_change Q e -> method_step Q e sd sg v v' ap ad sg' ->
  method_step Q' (fun _ => 0) sd sg (mov v) (mov v') ap ad sg'.
Proof.
  intros He [d [H1 [[b1 [H2 E2]] [[b2 [H3 E3]] [M1 M2 M3 M4]]]]]. exists (dmov d).
  split; [|split; [|split]].
  - destruct H1 as [dp1 a b H4 H5 H6 H7 H8 H9|H4 H5 H6].
    + apply (predictor_corrector Q' _ sd sg (mov v) (dmov d) sg' (dmov dp1) a b); auto.
      * apply (mv_direction e v _ dp1 He H5).
      * rewrite (md_m _ _ _ _ _ _ HQ). apply (order_step m h _ _ _ HO H6).
      * rewrite (md_m _ _ _ _ _ _ HQ). apply (order_step m h _ _ _ HO H7).
      * rewrite mv_reduction. exact H8.
      * rewrite mv_gap. apply (mv_direction e v _ d He H9).
    + apply centering; auto. rewrite mv_gap. apply (mv_direction e v _ d He H6).
  - exists b1. split; auto. rewrite (md_m _ _ _ _ _ _ HQ). apply (order_step m h _ _ _ HO H2).
  - exists b2. split; auto. rewrite (md_m _ _ _ _ _ _ HQ). apply (order_step m h _ _ _ HO H3).
  - split; rewrite ?(md_n _ _ _ _ _ _ HQ), ?(md_m _ _ _ _ _ _ HQ), ?(md_p _ _ _ _ _ _ HQ); intros i Hi; cbn [moved_point dmov vx vy vz vs]; auto.
    + rewrite <- turn_scal, <- turn_plus. apply turn_ext. intros a Ha. rewrite M1 by auto. ring.
    + rewrite <- turn_scal, <- turn_plus. apply turn_ext. intros a Ha. rewrite M2 by auto. ring.
Qed.

Lemma mv_start e v : no_change Q e -> start_point Q e v -> start_point Q' (fun _ => 0) (mov v).
Proof.
  intros He [[t [X [Y Z_]]] [a [A S]] [b [B T']]]. split.
  - exists (fun i => t (h i)). rewrite (md_n _ _ _ _ _ _ HQ), (md_m _ _ _ _ _ _ HQ), (md_p _ _ _ _ _ _ HQ). cbn [moved_point vx vy vz vs]. split; [|split].
    + intros j Hj. rewrite mv_sum_P, mv_sum_At, (mv_sum_Gt j t), (md_c _ _ _ _ _ _ HQ) by auto.
      rewrite Rmult_0_l, Rplus_0_r, <- !turn_plus, <- turn_opp. apply turn_ext. intros c Hc. pose proof (X c Hc) as E. rewrite He in E by lia.
      rewrite (Sum_ext n (fun b0 => dP Q c b0 * (vx v b0 - x0 b0)) (fun b0 => dP Q c b0 * vx v b0 - dP Q c b0 * x0 b0)) by (intros; ring).
      rewrite Sum_minus. lra.
    + intros k Hk. rewrite mv_sum_A, (md_b _ _ _ _ _ _ HQ) by auto. rewrite Rmult_0_l, Rplus_0_r. apply turn_ext. intros l Hl.
      pose proof (Y l Hl) as E. rewrite He in E by lia.
      rewrite (Sum_ext n (fun b0 => dA Q l b0 * (vx v b0 - x0 b0)) (fun b0 => dA Q l b0 * vx v b0 - dA Q l b0 * x0 b0)) by (intros; ring).
      rewrite Sum_minus. lra.
    + intros i Hi. rewrite mv_sum_G, (md_h _ _ _ _ _ _ HQ) by auto. pose proof (hi i Hi) as Hh. pose proof (Z_ (h i) Hh) as E. rewrite He in E by lia.
      rewrite (Sum_ext n (fun b0 => dG Q (h i) b0 * (vx v b0 - x0 b0)) (fun b0 => dG Q (h i) b0 * vx v b0 - dG Q (h i) b0 * x0 b0)) by (intros; ring).
      rewrite Sum_minus. lra.
  - exists a. rewrite (md_m _ _ _ _ _ _ HQ). split.
    + eapply least_ext; [|apply (order_least m h _ _ HO A)]. intros i Hi. symmetry. apply mv_slack. auto.
    + intros i Hi. rewrite mv_slack by auto. cbn [moved_point vs]. apply S. auto.
  - exists b. rewrite (md_m _ _ _ _ _ _ HQ). split.
    + eapply greatest_ext; [|apply (order_greatest m h _ _ HO B)]. intros i Hi. symmetry. apply mv_slack. auto.
    + intros i Hi. rewrite mv_slack by auto. cbn [moved_point vz]. apply T'. auto.
Qed.

Lemma mv_vars v w : vars_eq Q v w -> vars_eq Q' (mov v) (mov w).
Proof.
  intros [H1 H2 H3 H4]. split; rewrite ?(md_n _ _ _ _ _ _ HQ), ?(md_m _ _ _ _ _ _ HQ), ?(md_p _ _ _ _ _ _ HQ); intros i Hi; cbn [moved_point vx vy vz vs]; auto.
  - apply turn_ext. intros a Ha. rewrite H1 by auto. reflexivity.
  - apply turn_ext. intros a Ha. apply H2. auto.
Qed.
End Motion.
