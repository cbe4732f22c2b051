(** Consequences of the step specification, about mathematics only. *)
From Coq Require Import ZArith Reals List Lia Lra.
From Verif Require Import Lists QpSpec StepSpec.
Open Scope Z_scope.
Open Scope R_scope.

Lemma Rmult_le_compat_neg_r r a b : r <= 0 -> a <= b -> b * r <= a * r.
Proof. intros H1 H2. rewrite (Rmult_comm b r), (Rmult_comm a r). apply Rmult_le_compat_neg_l; auto. Qed.

(** ** Step lengths *)

Lemma step_length_pos v d m a : (forall i, (0 <= i < m)%Z -> 0 < v i) -> step_length v d m a -> 0 < a.
Proof.
  intros Hv [[[H1 H2] _]|[_ ->]]; [|lra].
  destruct (Rlt_le_dec 0 a) as [|Ha]; auto. exfalso.
  (* some small positive step is still feasible *)
  assert (G : forall k, (0 <= k)%Z -> exists t, 0 < t /\ forall i, (0 <= i < m)%Z -> (i < k)%Z -> 0 <= v i + t * d i).
  { apply (zr_ind (fun k => exists t, 0 < t /\ forall i, (0 <= i < m)%Z -> (i < k)%Z -> 0 <= v i + t * d i)).
    - exists 1. split; [lra|]. intros; lia.
    - intros k Hk [t [Ht IH]].
      assert (HM : forall i t', (0 <= i < m)%Z -> 0 < t' <= t -> 0 <= v i + t * d i -> 0 <= v i + t' * d i).
      { intros i t' Hi Ht' H. pose proof (Hv i Hi). destruct (Rle_dec 0 (d i)).
        - assert (0 <= t' * d i) by (apply Rmult_le_pos; lra). lra.
        - assert (t * d i <= t' * d i) by (apply Rmult_le_compat_neg_r; lra). lra. }
      destruct (Z.lt_ge_cases k m) as [Hkm|Hkm].
      2:{ exists t. split; auto. intros i Hi Hik. apply IH; auto. lia. }
      pose proof (Hv k ltac:(lia)) as Hvk.
      destruct (Rle_dec 0 (v k + t * d k)) as [Hok|Hno].
      { exists t. split; auto. intros i Hi Hik. destruct (Z.eq_dec i k) as [->|]; auto. apply IH; auto. lia. }
      assert (Hdk : d k < 0) by (destruct (Rlt_dec (d k) 0); auto; assert (0 <= t * d k) by (apply Rmult_le_pos; lra); lra).
      exists (- (v k / d k)).
      assert (Hp : 0 < - (v k / d k)).
      { unfold Rdiv. rewrite Ropp_mult_distr_r. apply Rmult_lt_0_compat; auto.
        apply Ropp_0_gt_lt_contravar. apply Rinv_lt_0_compat. auto. }
      assert (Hle : - (v k / d k) <= t).
      { apply (Rmult_le_reg_r (- d k)); [lra|]. replace (- (v k / d k) * - d k) with (v k) by (field; lra). lra. }
      split; auto. intros i Hi Hik. destruct (Z.eq_dec i k) as [->|].
      + right. field. lra.
      + apply HM; auto. apply IH; auto. lia. }
  destruct (Z.lt_ge_cases m 0) as [Hm|Hm].
  - destruct (H2 (a + 1)) as [i [Hi _]]; [lra|lia].
  - destruct (G m Hm) as [t [Ht Hall]]. destruct (H2 t) as [i [Hi Hlt]]; [lra|]. pose proof (Hall i Hi ltac:(lia)). lra.
Qed.

Lemma step_length_feasible v d m a i : (forall i, (0 <= i < m)%Z -> 0 < v i) -> step_length v d m a ->
  (0 <= i < m)%Z -> 0 <= v i + a * d i.
Proof.
  intros Hv [[[H1 _] _]|[H ->]] Hi; auto. specialize (H i Hi). pose proof (Hv i Hi).
  destruct (Rle_dec 0 (d i)); lra.
Qed.

Section Damped.
Variable Q : QPdata.
Notation m := (dm Q).

Lemma damped_range v d a : (forall i, (0 <= i < m)%Z -> 0 < v i) -> damped_step Q v d a -> 0 < a <= 1.
Proof.
  intros Hv [b [Hb ->]]. pose proof (step_length_pos v d m b Hv Hb). split.
  - apply Rmin_glb_lt; lra.
  - apply Rmin_r.
Qed.

Lemma damped_interior v d a i : (forall i, (0 <= i < m)%Z -> 0 < v i) -> damped_step Q v d a -> (0 <= i < m)%Z ->
  0 < v i + a * d i.
Proof.
  intros Hv HD Hi. pose proof (damped_range _ _ _ Hv HD) as Ha. destruct HD as [b [Hb Ea]].
  pose proof (step_length_pos v d m b Hv Hb) as Hbp. pose proof (step_length_feasible v d m b i Hv Hb Hi) as Hf.
  pose proof (Hv i Hi) as Hvi. assert (Hab : a <= 99 / 100 * b) by (rewrite Ea; apply Rmin_l).
  destruct (Rle_dec 0 (d i)) as [Hd|Hd].
  - assert (0 <= a * d i) by (apply Rmult_le_pos; lra). lra.
  - assert (99 / 100 * b * d i <= a * d i) by (apply Rmult_le_compat_neg_r; lra). lra.
Qed.
End Damped.

(** ** Residuals after a step *)

Section Residuals.
Variable Q : QPdata.
Notation n := (dn Q).
Notation m := (dm Q).
Notation p := (dp Q).
Variables (e rc : Z -> R) (v d v' : vars) (ap ad : R).
Hypothesis HDir : direction Q e v rc d.
Hypothesis HM : moves Q v d ap ad v'.

Lemma moved_eq k : (0 <= k < p)%Z ->
  res_eq Q (vx v') k = (1 - ap) * res_eq Q (vx v) k + ap * (e (n + k)%Z * vy d k).
Proof.
  intros Hk. pose proof (dir_y _ _ _ _ _ HDir k Hk) as E.
  assert (E2 : res_eq Q (vx v') k = res_eq Q (vx v) k - ap * Sum n (fun c => dA Q k c * vx d c)).
  { unfold res_eq. rewrite (Sum_ext n (fun j => dA Q k j * vx v' j) (fun j => dA Q k j * vx v j + ap * (dA Q k j * vx d j))).
    - rewrite Sum_plus, Sum_scal. ring.
    - intros j Hj. rewrite (mv_x _ _ _ _ _ _ HM) by auto. ring. }
  rewrite E2, <- E. ring.
Qed.

Lemma moved_in i : (0 <= i < m)%Z ->
  res_in Q (vx v') (vs v') i = (1 - ap) * res_in Q (vx v) (vs v) i + ap * (e (n + p + i)%Z * vz d i).
Proof.
  intros Hi. pose proof (dir_z _ _ _ _ _ HDir i Hi) as E.
  assert (E2 : res_in Q (vx v') (vs v') i = res_in Q (vx v) (vs v) i - ap * (Sum n (fun c => dG Q i c * vx d c) + vs d i)).
  { unfold res_in. rewrite (Sum_ext n (fun j => dG Q i j * vx v' j) (fun j => dG Q i j * vx v j + ap * (dG Q i j * vx d j))).
    - rewrite Sum_plus, Sum_scal, (mv_s _ _ _ _ _ _ HM) by auto. ring.
    - intros j Hj. rewrite (mv_x _ _ _ _ _ _ HM) by auto. ring. }
  rewrite E2, <- E. ring.
Qed.

Lemma moved_dual j : (0 <= j < n)%Z ->
  res_dual Q (vx v') (vy v') (vz v') j =
  (1 - ad) * res_dual Q (vx v) (vy v) (vz v) j + (ad - ap) * Sum n (fun c => dP Q j c * vx d c) + ad * (e j * vx d j).
Proof.
  intros Hj. pose proof (dir_x _ _ _ _ _ HDir j Hj) as E.
  assert (E2 : res_dual Q (vx v') (vy v') (vz v') j = res_dual Q (vx v) (vy v) (vz v) j
     - ap * Sum n (fun c => dP Q j c * vx d c)
     - ad * (Sum p (fun k => dA Q k j * vy d k) + Sum m (fun i => dG Q i j * vz d i))).
  { unfold res_dual.
    rewrite (Sum_ext n (fun k => dP Q j k * vx v' k) (fun k => dP Q j k * vx v k + ap * (dP Q j k * vx d k)))
      by (intros k Hk; rewrite (mv_x _ _ _ _ _ _ HM) by auto; ring).
    rewrite (Sum_ext m (fun i => dG Q i j * vz v' i) (fun i => dG Q i j * vz v i + ad * (dG Q i j * vz d i)))
      by (intros k Hk; rewrite (mv_z _ _ _ _ _ _ HM) by auto; ring).
    rewrite (Sum_ext p (fun i => dA Q i j * vy v' i) (fun i => dA Q i j * vy v i + ad * (dA Q i j * vy d i)))
      by (intros k Hk; rewrite (mv_y _ _ _ _ _ _ HM) by auto; ring).
    rewrite !Sum_plus, !Sum_scal. ring. }
  rewrite E2, <- E. ring.
Qed.
End Residuals.

Lemma step_has_direction Q e sd sg v d sg' : step_direction Q e sd sg v d sg' -> exists rc, direction Q e v rc d.
Proof. intros [dp ap ad H1 H2 H3 H4 H5 H6|H1 H2 H3]; eauto. Qed.

(** ** Pointwise equal variables *)

Section Ext.
Variable Q : QPdata.
Notation n := (dn Q).
Notation m := (dm Q).
Notation p := (dp Q).

Record vars_eq (a b : vars) : Prop := mkVarsEq {
  ve_x : forall i, (0 <= i < n)%Z -> vx a i = vx b i;
  ve_y : forall i, (0 <= i < p)%Z -> vy a i = vy b i;
  ve_z : forall i, (0 <= i < m)%Z -> vz a i = vz b i;
  ve_s : forall i, (0 <= i < m)%Z -> vs a i = vs b i
}.

Lemma vars_eq_sym a b : vars_eq a b -> vars_eq b a.
Proof. intros [H1 H2 H3 H4]. split; intros; symmetry; auto. Qed.

Lemma step_length_ext v v' d a : (forall i, (0 <= i < m)%Z -> v i = v' i) -> step_length v d m a -> step_length v' d m a.
Proof.
  intros H [[[H1 H2] H3]|[H1 H2]].
  - left. split; auto. split.
    + intros i Hi. rewrite <- H by auto. auto.
    + intros b Hb. destruct (H2 b Hb) as [i [Hi Hlt]]. exists i. split; auto. rewrite <- H by auto. auto.
  - right. split; auto. intros i Hi. rewrite <- H by auto. auto.
Qed.

Lemma direction_ext e v v' rc rc' d : vars_eq v v' -> (forall i, (0 <= i < m)%Z -> rc i = rc' i) ->
  direction Q e v rc d -> direction Q e v' rc' d.
Proof.
  intros [X Y Z_ S] Hr [H1 H2 H3 H4]. split.
  - intros j Hj. rewrite H1 by auto. unfold res_dual. f_equal. f_equal; [f_equal|].
    + f_equal. apply Sum_ext. intros i Hi. rewrite X; auto.
    + apply Sum_ext. intros i Hi. rewrite Z_; auto.
    + apply Sum_ext. intros i Hi. rewrite Y; auto.
  - intros k Hk. rewrite H2 by auto. unfold res_eq. f_equal. apply Sum_ext. intros i Hi. rewrite X; auto.
  - intros i Hi. rewrite H3 by auto. unfold res_in. rewrite S by auto. f_equal. apply Sum_ext. intros j Hj. rewrite X; auto.
  - intros i Hi. rewrite <- Z_, <- S, <- Hr by auto. auto.
Qed.

Lemma gap_ext' s s' z z' : (forall i, (0 <= i < m)%Z -> s i = s' i) -> (forall i, (0 <= i < m)%Z -> z i = z' i) ->
  gap Q s z = gap Q s' z'.
Proof. intros H1 H2. unfold gap. f_equal. apply Sum_ext. intros i Hi. rewrite H1, H2; auto. Qed.

Lemma step_direction_ext e sd sg v v' d sg' : vars_eq v v' -> step_direction Q e sd sg v d sg' -> step_direction Q e sd sg v' d sg'.
Proof.
  intros HV H. pose proof HV as [X Y Z_ S]. destruct H as [dp ap ad H1 H2 H3 H4 H5 H6|H1 H2 H3].
  - apply (predictor_corrector Q e sd sg v' d sg' dp ap ad); auto.
    + eapply direction_ext; [exact HV| |exact H2]. intros i Hi. cbv beta. rewrite S, Z_; auto.
    + eapply step_length_ext; eauto.
    + eapply step_length_ext; eauto.
    + rewrite H5. do 3 f_equal. unfold reduction.
      rewrite (Sum_ext m (fun i => vs v i * vz v i) (fun i => vs v' i * vz v' i)) by (intros i Hi; rewrite S, Z_; auto).
      rewrite (Sum_ext m (fun i => (vs v i + ap * vs dp i) * (vz v i + ad * vz dp i))
        (fun i => (vs v' i + ap * vs dp i) * (vz v' i + ad * vz dp i))) by (intros i Hi; rewrite S, Z_; auto).
      reflexivity.
    + eapply direction_ext; [exact HV| |exact H6]. intros i Hi. cbv beta. rewrite S, Z_ by auto.
      rewrite (gap_ext' (vs v) (vs v') (vz v) (vz v')); auto.
  - apply centering; auto. eapply direction_ext; [exact HV| |exact H3]. intros i Hi. cbv beta. rewrite S, Z_ by auto.
    rewrite (gap_ext' (vs v) (vs v') (vz v) (vz v')); auto.
Qed.

Lemma method_step_ext e sd sg v w v' w' ap ad sg' : vars_eq v w -> vars_eq v' w' ->
  method_step Q e sd sg v v' ap ad sg' -> method_step Q e sd sg w w' ap ad sg'.
Proof.
  intros HV HV' [d [H1 [[b [Hb Eb]] [[c [Hc Ec]] HM]]]]. exists d.
  split; [eapply step_direction_ext; eauto|]. destruct HV as [X Y Z_ S], HV' as [X' Y' Z' S'].
  split; [exists b; split; auto; eapply step_length_ext; eauto|].
  split; [exists c; split; auto; eapply step_length_ext; eauto|].
  destruct HM as [M1 M2 M3 M4]. split; intros i Hi.
  - rewrite <- X', <- X by auto. auto.
  - rewrite <- Y', <- Y by auto. auto.
  - rewrite <- Z', <- Z_ by auto. auto.
  - rewrite <- S', <- S by auto. auto.
Qed.
End Ext.

Lemma regular_order_ext N K K' ord ord' : (forall i, (0 <= i < N)%Z -> ord i = ord' i) ->
  (forall i, (0 <= i < N)%Z -> (0 <= ord i < N)%Z) ->
  (forall a c, (0 <= a < N)%Z -> (0 <= c < N)%Z -> K a c = K' a c) -> regular_order N K ord -> regular_order N K' ord'.
Proof.
  intros H1 H2 H3 [L [D [U1 [U2 [U3 U4]]]]]. exists L, D. split; auto. split; auto. split; auto.
  intros i k Hi Hk. rewrite <- U3 by auto. rewrite <- !H1 by auto. symmetry. apply H3; auto.
Qed.

Lemma regularised_ext N K K' ord ord' e e' : (forall i, (0 <= i < N)%Z -> ord i = ord' i) ->
  (forall i, (0 <= i < N)%Z -> (0 <= ord i < N)%Z) ->
  (forall a c, (0 <= a < N)%Z -> (0 <= c < N)%Z -> K a c = K' a c) -> (forall a, (0 <= a < N)%Z -> e a = e' a) ->
  regularised N K ord e -> regularised N K' ord' e'.
Proof.
  intros H1 H2 H3 H4 [L [D [U1 [U2 [U3 U4]]]]]. exists L, D. split; auto. split; auto. split.
  - intros i k Hi Hk. rewrite <- U3 by auto. rewrite <- !H1 by auto. rewrite <- H3, <- H4 by auto. reflexivity.
  - intros k Hk. rewrite <- H1, <- H4 by auto. apply U4; auto.
Qed.

(** ** The centering parameter *)

Lemma cube_le_1 r : r <= 1 -> r ^ 3 <= 1.
Proof.
  intros H. destruct (Rle_dec 0 r) as [H0|H0].
  - assert (r * r <= 1) by (apply Rle_trans with (1 * 1); [apply Rmult_le_compat; lra|lra]).
    simpl. rewrite Rmult_1_r. apply Rle_trans with (1 * 1); [apply Rmult_le_compat; try lra; apply Rmult_le_pos; lra|lra].
  - assert (0 <= r * r) by (replace (r * r) with (Rsqr r) by reflexivity; apply Rle_0_sqr).
    assert (r * (r * r) <= 0) by (assert (0 <= - r * (r * r)) by (apply Rmult_le_pos; lra); lra). simpl. lra.
Qed.

Lemma next_sigma_range Q e sd sg v d sg' : step_direction Q e sd sg v d sg' -> sd <= sg' <= Rmax sd 1.
Proof.
  intros [dp ap ad H1 H2 H3 H4 -> H6|H1 -> H3].
  - split; [apply Rmax_l|]. apply Rmax_case_strong; intros _; [apply Rmax_l|].
    eapply Rle_trans; [apply cube_le_1, Rmin_l|apply Rmax_r].
  - split; [lra|apply Rmax_l].
Qed.
