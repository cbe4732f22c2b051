(** Renaming the variables and constraints of a quadratic program, and what that does to the method of [StepSpec]. *)
From Coq Require Import ZArith Reals List Lia Lra Bool.
From Verif Require Import Lists QpSpec StepSpec StepFacts StepUniq.
Open Scope Z_scope.

(** Q' is Q with its variables, equalities and inequalities renamed: variable i of Q' is variable [f i] of Q,
    equality i is equality [g i], inequality i is inequality [h i]. *)
Record relabelled (f g h : Z -> Z) (Q Q' : QPdata) : Prop := mkRelabel {
  rl_n : dn Q' = dn Q; rl_m : dm Q' = dm Q; rl_p : dp Q' = dp Q;
  rl_f : order_of (dn Q) f; rl_g : order_of (dp Q) g; rl_h : order_of (dm Q) h;
  rl_P : forall i j, 0 <= i < dn Q -> 0 <= j < dn Q -> dP Q' i j = dP Q (f i) (f j);
  rl_A : forall i j, 0 <= i < dp Q -> 0 <= j < dn Q -> dA Q' i j = dA Q (g i) (f j);
  rl_G : forall i j, 0 <= i < dm Q -> 0 <= j < dn Q -> dG Q' i j = dG Q (h i) (f j);
  rl_c : forall i, 0 <= i < dn Q -> dc Q' i = dc Q (f i);
  rl_b : forall i, 0 <= i < dp Q -> db Q' i = db Q (g i);
  rl_hh : forall i, 0 <= i < dm Q -> dh Q' i = dh Q (h i)
}.

(** The same point under the new names. *)
Definition renamed (f g h : Z -> Z) (v : vars) : vars :=
  mkVars (fun i => vx v (f i)) (fun i => vy v (g i)) (fun i => vz v (h i)) (fun i => vs v (h i)).

Open Scope R_scope.


Section Relabel.
Variables (f g h : Z -> Z) (Q Q' : QPdata).
Hypothesis HQ : relabelled f g h Q Q'.
Hypothesis Dn : (0 <= dn Q)%Z.
Hypothesis Dm : (0 <= dm Q)%Z.
Hypothesis Dp : (0 <= dp Q)%Z.
Notation ren := (renamed f g h).
Notation n := (dn Q).
Notation m := (dm Q).
Notation p := (dp Q).

Let fi i : (0 <= i < n)%Z -> (0 <= f i < n)%Z := proj1 (rl_f _ _ _ _ _ HQ) i.
Let gi i : (0 <= i < p)%Z -> (0 <= g i < p)%Z := proj1 (rl_g _ _ _ _ _ HQ) i.
Let hi i : (0 <= i < m)%Z -> (0 <= h i < m)%Z := proj1 (rl_h _ _ _ _ _ HQ) i.

Lemma ren_sum_P j x : (0 <= j < n)%Z -> Sum n (fun c => dP Q' j c * x (f c)) = Sum n (fun c => dP Q (f j) c * x c).
Proof.
  intros Hj. rewrite (Sum_order n f (fun c => dP Q (f j) c * x c) (rl_f _ _ _ _ _ HQ)). apply Sum_ext. intros c Hc.
  rewrite (rl_P _ _ _ _ _ HQ) by auto. reflexivity.
Qed.
Lemma ren_sum_A j x : (0 <= j < p)%Z -> Sum n (fun c => dA Q' j c * x (f c)) = Sum n (fun c => dA Q (g j) c * x c).
Proof.
  intros Hj. rewrite (Sum_order n f (fun c => dA Q (g j) c * x c) (rl_f _ _ _ _ _ HQ)). apply Sum_ext. intros c Hc.
  rewrite (rl_A _ _ _ _ _ HQ) by auto. reflexivity.
Qed.
Lemma ren_sum_G j x : (0 <= j < m)%Z -> Sum n (fun c => dG Q' j c * x (f c)) = Sum n (fun c => dG Q (h j) c * x c).
Proof.
  intros Hj. rewrite (Sum_order n f (fun c => dG Q (h j) c * x c) (rl_f _ _ _ _ _ HQ)). apply Sum_ext. intros c Hc.
  rewrite (rl_G _ _ _ _ _ HQ) by auto. reflexivity.
Qed.
Lemma ren_sum_At j y : (0 <= j < n)%Z -> Sum p (fun k => dA Q' k j * y (g k)) = Sum p (fun k => dA Q k (f j) * y k).
Proof.
  intros Hj. rewrite (Sum_order p g (fun c => dA Q c (f j) * y c) (rl_g _ _ _ _ _ HQ)). apply Sum_ext. intros c Hc.
  rewrite (rl_A _ _ _ _ _ HQ) by auto. reflexivity.
Qed.
Lemma ren_sum_Gt j z : (0 <= j < n)%Z -> Sum m (fun k => dG Q' k j * z (h k)) = Sum m (fun k => dG Q k (f j) * z k).
Proof.
  intros Hj. rewrite (Sum_order m h (fun c => dG Q c (f j) * z c) (rl_h _ _ _ _ _ HQ)). apply Sum_ext. intros c Hc.
  rewrite (rl_G _ _ _ _ _ HQ) by auto. reflexivity.
Qed.

Lemma ren_dual v j : (0 <= j < n)%Z -> res_dual Q' (vx (ren v)) (vy (ren v)) (vz (ren v)) j = res_dual Q (vx v) (vy v) (vz v) (f j).
Proof.
  intros Hj. unfold res_dual. cbn [renamed vx vy vz vs]. rewrite (rl_n _ _ _ _ _ HQ), (rl_m _ _ _ _ _ HQ), (rl_p _ _ _ _ _ HQ).
  rewrite (ren_sum_P j (vx v)), (ren_sum_At j (vy v)), (ren_sum_Gt j (vz v)), (rl_c _ _ _ _ _ HQ) by auto. reflexivity.
Qed.
Lemma ren_eq v k : (0 <= k < p)%Z -> res_eq Q' (vx (ren v)) k = res_eq Q (vx v) (g k).
Proof.
  intros Hk. unfold res_eq. cbn [renamed vx]. rewrite (rl_n _ _ _ _ _ HQ), (ren_sum_A k (vx v)), (rl_b _ _ _ _ _ HQ) by auto. reflexivity.
Qed.
Lemma ren_in v k : (0 <= k < m)%Z -> res_in Q' (vx (ren v)) (vs (ren v)) k = res_in Q (vx v) (vs v) (h k).
Proof.
  intros Hk. unfold res_in. cbn [renamed vx vs]. rewrite (rl_n _ _ _ _ _ HQ), (ren_sum_G k (vx v)), (rl_hh _ _ _ _ _ HQ) by auto. reflexivity.
Qed.
Lemma ren_slack v k : (0 <= k < m)%Z -> slack Q' (vx (ren v)) k = slack Q (vx v) (h k).
Proof.
  intros Hk. unfold slack. cbn [renamed vx]. rewrite (rl_n _ _ _ _ _ HQ), (ren_sum_G k (vx v)), (rl_hh _ _ _ _ _ HQ) by auto. reflexivity.
Qed.
Lemma ren_gap v : gap Q' (vs (ren v)) (vz (ren v)) = gap Q (vs v) (vz v).
Proof.
  unfold gap. cbn [renamed vz vs]. rewrite (rl_m _ _ _ _ _ HQ). f_equal. symmetry.
  apply (Sum_order m h (fun i => vs v i * vz v i) (rl_h _ _ _ _ _ HQ)).
Qed.
Lemma ren_objective v : objective Q' (vx (ren v)) = objective Q (vx v).
Proof.
  unfold objective. cbn [renamed vx]. rewrite (rl_n _ _ _ _ _ HQ). f_equal; [f_equal|].
  - rewrite (Sum_order n f (fun i => vx v i * Sum n (fun j => dP Q i j * vx v j)) (rl_f _ _ _ _ _ HQ)).
    apply Sum_ext. intros i Hi. rewrite (ren_sum_P i (vx v)) by auto. reflexivity.
  - rewrite (Sum_order n f (fun i => dc Q i * vx v i) (rl_f _ _ _ _ _ HQ)). apply Sum_ext. intros i Hi.
    rewrite (rl_c _ _ _ _ _ HQ) by auto. reflexivity.
Qed.

Lemma Euclid_order N ord v : order_of N ord -> Euclid (fun i => v (ord i)) N = Euclid v N.
Proof. intros HO. unfold Euclid. f_equal. symmetry. apply (Sum_order N ord (fun i => v i * v i) HO). Qed.

Lemma ren_norms v : Euclid (res_dual Q' (vx (ren v)) (vy (ren v)) (vz (ren v))) (dn Q') = Euclid (res_dual Q (vx v) (vy v) (vz v)) n /\
  Euclid (res_eq Q' (vx (ren v))) (dp Q') = Euclid (res_eq Q (vx v)) p /\
  Euclid (res_in Q' (vx (ren v)) (vs (ren v))) (dm Q') = Euclid (res_in Q (vx v) (vs v)) m.
Proof.
  rewrite (rl_n _ _ _ _ _ HQ), (rl_m _ _ _ _ _ HQ), (rl_p _ _ _ _ _ HQ). split; [|split].
  - rewrite <- (Euclid_order n f (res_dual Q (vx v) (vy v) (vz v)) (rl_f _ _ _ _ _ HQ)). apply Euclid_ext. intros i Hi. apply ren_dual. auto.
  - rewrite <- (Euclid_order p g (res_eq Q (vx v)) (rl_g _ _ _ _ _ HQ)). apply Euclid_ext. intros i Hi. apply ren_eq. auto.
  - rewrite <- (Euclid_order m h (res_in Q (vx v) (vs v)) (rl_h _ _ _ _ _ HQ)). apply Euclid_ext. intros i Hi. apply ren_in. auto.
Qed.

Lemma ren_passes rt at_ v : passes_at Q' rt at_ (ren v) <-> passes_at Q rt at_ v.
Proof.
  unfold passes_at, passes. destruct (ren_norms v) as [-> [-> ->]]. rewrite ren_gap, (rl_p _ _ _ _ _ HQ). tauto.
Qed.

Lemma ren_interior v : interior_vars Q v -> interior_vars Q' (ren v).
Proof. intros H i Hi. rewrite (rl_m _ _ _ _ _ HQ) in Hi. exact (H (h i) (hi i Hi)). Qed.

Lemma ren_symmetric : symmetric Q -> symmetric Q'.
Proof.
  intros H i j Hi Hj. rewrite (rl_n _ _ _ _ _ HQ) in *. rewrite !(rl_P _ _ _ _ _ HQ) by auto. apply H; auto.
Qed.

Lemma ren_direction e v rc d : no_change Q e -> direction Q e v rc d -> direction Q' (fun _ => 0) (ren v) (fun i => rc (h i)) (ren d).
Proof.
  intros He [X Y Z_ S]. split; rewrite ?(rl_n _ _ _ _ _ HQ), ?(rl_m _ _ _ _ _ HQ), ?(rl_p _ _ _ _ _ HQ).
  - intros j Hj. rewrite ren_dual by auto. cbn [renamed vx vy vz vs].
    rewrite (ren_sum_P j (vx d)), (ren_sum_At j (vy d)), (ren_sum_Gt j (vz d)) by auto. pose proof (fi j Hj) as Hf.
    rewrite <- (X (f j) Hf), He by lia. ring.
  - intros k Hk. rewrite ren_eq by auto. cbn [renamed vx vy]. rewrite (ren_sum_A k (vx d)) by auto. pose proof (gi k Hk) as Hg.
    rewrite <- (Y (g k) Hg), He by lia. ring.
  - intros i Hi. rewrite ren_in by auto. cbn [renamed vx vz vs]. rewrite (ren_sum_G i (vx d)) by auto. pose proof (hi i Hi) as Hh.
    rewrite <- (Z_ (h i) Hh), He by lia. ring.
  - intros i Hi. cbn [renamed vz vs]. apply S. auto.
Qed.

Lemma order_largest N ord v d a : order_of N ord -> largest_step v d N a -> largest_step (fun i => v (ord i)) (fun i => d (ord i)) N a.
Proof.
  intros HO [H1 H2]. split.
  - intros i Hi. apply H1. apply (proj1 HO). auto.
  - intros b Hb. destruct (H2 b Hb) as [i [Hi Hn]]. destruct (order_onto N ord i HO Hi) as [j [Hj <-]]. exists j. auto.
Qed.
Lemma order_step N ord v d a : order_of N ord -> step_length v d N a -> step_length (fun i => v (ord i)) (fun i => d (ord i)) N a.
Proof.
  intros HO [[H1 H2]|[H1 H2]].
  - left. split; auto. apply order_largest; auto.
  - right. split; auto. intros i Hi. apply H1. apply (proj1 HO). auto.
Qed.
Lemma order_least N ord v a : order_of N ord -> least v N a -> least (fun i => v (ord i)) N a.
Proof.
  intros HO [H1 [i [Hi E]]]. split; [intros j Hj; apply H1, (proj1 HO); auto|].
  destruct (order_onto N ord i HO Hi) as [j [Hj <-]]. exists j. auto.
Qed.
Lemma order_greatest N ord v a : order_of N ord -> greatest v N a -> greatest (fun i => v (ord i)) N a.
Proof.
  intros HO [H1 [i [Hi E]]]. split; [intros j Hj; apply H1, (proj1 HO); auto|].
  destruct (order_onto N ord i HO Hi) as [j [Hj <-]]. exists j. auto.
Qed.

Lemma ren_reduction v d ap ad : reduction Q' (ren v) (ren d) ap ad = reduction Q v d ap ad.
Proof.
  unfold reduction. rewrite (rl_m _ _ _ _ _ HQ). cbn [renamed vz vs]. f_equal.
  - symmetry. apply (Sum_order m h (fun i => (vs v i + ap * vs d i) * (vz v i + ad * vz d i)) (rl_h _ _ _ _ _ HQ)).
  - symmetry. apply (Sum_order m h (fun i => vs v i * vz v i) (rl_h _ _ _ _ _ HQ)).
Qed.

Lemma ren_step e sd sg v v' ap ad sg' : no_change Q e -> method_step Q e sd sg v v' ap ad sg' ->
  method_step Q' (fun _ => 0) sd sg (ren v) (ren v') ap ad sg'.
Proof.
  intros He [d [H1 [[b1 [H2 E2]] [[b2 [H3 E3]] [M1 M2 M3 M4]]]]]. pose proof (rl_h _ _ _ _ _ HQ) as HO. exists (ren d).
  split; [|split; [|split]].
  - destruct H1 as [dp1 a b H4 H5 H6 H7 H8 H9|H4 H5 H6].
    + apply (predictor_corrector Q' _ sd sg (ren v) (ren d) sg' (ren dp1) a b); auto.
      * apply (ren_direction e v _ dp1 He H5).
      * rewrite (rl_m _ _ _ _ _ HQ). apply (order_step m h _ _ _ HO H6).
      * rewrite (rl_m _ _ _ _ _ HQ). apply (order_step m h _ _ _ HO H7).
      * rewrite ren_reduction. exact H8.
      * rewrite ren_gap. apply (ren_direction e v _ d He H9).
    + apply centering; auto. rewrite ren_gap. apply (ren_direction e v _ d He H6).
  - exists b1. split; auto. rewrite (rl_m _ _ _ _ _ HQ). apply (order_step m h _ _ _ HO H2).
  - exists b2. split; auto. rewrite (rl_m _ _ _ _ _ HQ). apply (order_step m h _ _ _ HO H3).
  - split; rewrite ?(rl_n _ _ _ _ _ HQ), ?(rl_m _ _ _ _ _ HQ), ?(rl_p _ _ _ _ _ HQ); intros i Hi; cbn [renamed vx vy vz vs];
      [apply M1|apply M2|apply M3|apply M4]; auto.
Qed.

Lemma ren_start e v : no_change Q e -> start_point Q e v -> start_point Q' (fun _ => 0) (ren v).
Proof.
  intros He [[t [X [Y Z_]]] [a [A S]] [b [B T]]]. pose proof (rl_h _ _ _ _ _ HQ) as HO. split.
  - exists (fun i => t (h i)). rewrite (rl_n _ _ _ _ _ HQ), (rl_m _ _ _ _ _ HQ), (rl_p _ _ _ _ _ HQ). cbn [renamed vx vy vz vs]. split; [|split].
    + intros j Hj. rewrite (ren_sum_P j (vx v)), (ren_sum_At j (vy v)), (ren_sum_Gt j t), (rl_c _ _ _ _ _ HQ) by auto. pose proof (fi j Hj) as Hf.
      rewrite <- (X (f j) Hf), He by lia. ring.
    + intros k Hk. rewrite (ren_sum_A k (vx v)), (rl_b _ _ _ _ _ HQ) by auto. pose proof (gi k Hk) as Hg. rewrite <- (Y (g k) Hg), He by lia. ring.
    + intros i Hi. rewrite (ren_sum_G i (vx v)), (rl_hh _ _ _ _ _ HQ) by auto. pose proof (hi i Hi) as Hh. rewrite <- (Z_ (h i) Hh), He by lia. ring.
  - exists a. rewrite (rl_m _ _ _ _ _ HQ). split.
    + eapply least_ext; [|apply (order_least m h _ _ HO A)]. intros i Hi. symmetry. apply ren_slack. auto.
    + intros i Hi. rewrite ren_slack by auto. cbn [renamed vs]. apply S. auto.
  - exists b. rewrite (rl_m _ _ _ _ _ HQ). split.
    + eapply greatest_ext; [|apply (order_greatest m h _ _ HO B)]. intros i Hi. symmetry. apply ren_slack. auto.
    + intros i Hi. rewrite ren_slack by auto. cbn [renamed vz]. apply T. auto.
Qed.

Lemma ren_vars v w : vars_eq Q v w -> vars_eq Q' (ren v) (ren w).
Proof.
  intros [H1 H2 H3 H4]. split; rewrite ?(rl_n _ _ _ _ _ HQ), ?(rl_m _ _ _ _ _ HQ), ?(rl_p _ _ _ _ _ HQ); intros i Hi; cbn [renamed vx vy vz vs]; auto.
Qed.
End Relabel.
