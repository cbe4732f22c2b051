(** Property C72: the C solver and the MATLAB prototype it was written from. *)
From Coq Require Import ZArith Reals List Lia Lra Bool.
From RecordUpdate Require Import RecordUpdate.
From Verif Require Import Res Arith Lists MSparse MSolver Session Spec QpSpec Api Demo P2_Kkt PointR P5_Session P6_Codes StepSpec StepFacts StepUniq StepLink P7_Step P8_Problem P8_Cases MProto.
Import ListNotations.
Open Scope R_scope.

(** ** Specification *)

(** Moving from [v] along [d] leaves the nonnegative orthant before the step [t]. *)
Definition leaves (t : R) (v d : Z -> R) (m : Z) : Prop := exists i, (0 <= i < m)%Z /\ v i + t * d i < 0.

(** The boundary is met along the directions of the step: before 1000 along the predictor, before 1e10 along the step
    that is taken. *)
Record meets_boundary (Q : QPdata) (sd sg : R) (v : vars) : Prop := mkMeets {
  mb_predictor : sd < sg -> forall dp, direction Q (fun _ => 0) v (fun i => - (vs v i * vz v i)) dp ->
    leaves 1000 (vs v) (vs dp) (dm Q) /\ leaves 1000 (vz v) (vz dp) (dm Q);
  mb_step : forall d sg', step_direction Q (fun _ => 0) sd sg v d sg' ->
    leaves 10000000000 (vs v) (vs d) (dm Q) /\ leaves 10000000000 (vz v) (vz d) (dm Q)
}.

(** ** The step length *)

Lemma maxn_greatest f k : (forall i, (0 <= i <= Z.of_nat k)%Z -> f i <= m_maxn f k) /\ exists i, (0 <= i <= Z.of_nat k)%Z /\ f i = m_maxn f k.
Proof.
  induction k as [|k [H1 [i [Hi Ei]]]].
  - split; [intros i Hi; assert (i = 0)%Z by lia; subst i; cbn; lra|]. exists 0%Z. split; [lia|reflexivity].
  - cbn [m_maxn]. split.
    + intros j Hj. destruct (Z.eq_dec j (Z.of_nat (S k))) as [->|]; [apply Rmax_r|]. eapply Rle_trans; [apply H1; lia|apply Rmax_l].
    + destruct (Rle_dec (f (Z.of_nat (S k))) (m_maxn f k)).
      * exists i. split; [lia|]. rewrite Rmax_left by lra. exact Ei.
      * exists (Z.of_nat (S k)). split; [lia|]. rewrite Rmax_right by lra. reflexivity.
Qed.

Lemma max_greatest f m : (1 <= m)%Z -> greatest f m (m_max f m).
Proof.
  intros Hm. unfold m_max. destruct (maxn_greatest f (Z.to_nat (m - 1))) as [H1 [i [Hi Ei]]].
  split; [intros j Hj; apply H1; lia|]. exists i. split; [lia|exact Ei].
Qed.

Lemma max_ext f g m : (1 <= m)%Z -> (forall i, (0 <= i < m)%Z -> f i = g i) -> m_max f m = m_max g m.
Proof. intros Hm H. eapply greatest_unique; [eapply greatest_ext; [exact H|]|]; apply max_greatest; auto. Qed.

Definition test_t (t : R) (s d : Z -> R) (i : Z) : R :=
  if Req_EM_T (d i) 0 then - t else if Rlt_dec 0 (s i / d i) then - t else s i / d i.
Definition fsl_t (t : R) (s d : Z -> R) (m : Z) : R := - m_max (test_t t s d) m.

Lemma fsl_1000 s d m : m_findsteplength s d m = fsl_t 1000 s d m.
Proof. reflexivity. Qed.

Lemma test_neg t s d i : 0 < s i -> d i < 0 -> test_t t s d i = s i / d i.
Proof.
  intros Hs Hd. unfold test_t. destruct (Req_EM_T (d i) 0); [lra|]. destruct (Rlt_dec 0 (s i / d i)) as [L|]; [|reflexivity].
  exfalso. assert (s i = s i / d i * d i) by (field; lra). nra.
Qed.
Lemma test_pos t s d i : 0 < s i -> 0 <= d i -> test_t t s d i = - t.
Proof.
  intros Hs Hd. unfold test_t. destruct (Req_EM_T (d i) 0); [reflexivity|]. destruct (Rlt_dec 0 (s i / d i)) as [L|L]; [reflexivity|].
  exfalso. apply L. apply Rdiv_lt_0_compat; lra.
Qed.

Lemma fsl_step t s d m : (1 <= m)%Z -> 0 < t <= 10000000000 -> (forall i, (0 <= i < m)%Z -> 0 < s i) -> leaves t s d m ->
  largest_step s d m (fsl_t t s d m) /\ fsl_t t s d m < t.
Proof.
  intros Hm Ht Hs [i1 [Hi1 L1]]. destruct (max_greatest (test_t t s d) m Hm) as [G [i0 [Hi0 E0]]]. unfold fsl_t. set (M := m_max (test_t t s d) m) in *.
  pose proof (Hs i1 Hi1) as P1. assert (D1 : d i1 < 0) by nra.
  assert (A : - t < M).
  { pose proof (G i1 Hi1) as X. rewrite test_neg in X by auto. assert (s i1 = s i1 / d i1 * d i1) by (field; lra). nra. }
  assert (D0 : d i0 < 0). { destruct (Rlt_dec (d i0) 0); auto. rewrite test_pos in E0 by (auto; lra). lra. }
  rewrite test_neg in E0 by auto. pose proof (Hs i0 Hi0) as P0. assert (F0 : s i0 = M * d i0) by (rewrite <- E0; field; lra).
  assert (Mn : M < 0) by nra. split; [|lra]. split.
  - intros i Hi. pose proof (Hs i Hi). destruct (Rlt_dec (d i) 0) as [L|L]; [|nra].
    pose proof (G i Hi) as X. rewrite test_neg in X by auto. assert (s i = s i / d i * d i) by (field; lra). nra.
  - intros b Hb. exists i0. split; auto. nra.
Qed.

Lemma fsl_length s d m : (1 <= m)%Z -> (forall i, (0 <= i < m)%Z -> 0 < s i) -> leaves 1000 s d m -> step_length s d m (m_findsteplength s d m).
Proof. intros Hm Hs HL. left. rewrite fsl_1000. destruct (fsl_step 1000 s d m Hm ltac:(lra) Hs HL) as [H1 H2]. split; [exact H1|lra]. Qed.

Lemma fsl_damped Q s d : (1 <= dm Q)%Z -> (forall i, (0 <= i < dm Q)%Z -> 0 < s i) -> leaves 10000000000 s d (dm Q) ->
  damped_step Q s d (Rmin (99 / 100 * m_findsteplength s d (dm Q)) 1).
Proof.
  intros Hm Hs HL. destruct (fsl_step 10000000000 s d (dm Q) Hm ltac:(lra) Hs HL) as [H1 H2]. set (b := fsl_t 10000000000 s d (dm Q)) in *.
  exists b. split; [left; auto|]. destruct (Rlt_dec b 1000) as [L|L].
  - destruct (proj2 H1 1000 L) as [i [Hi Bi]].
    destruct (fsl_step 1000 s d (dm Q) Hm ltac:(lra) Hs (ex_intro _ i (conj Hi Bi))) as [G1 G2]. rewrite fsl_1000.
    assert (E : fsl_t 1000 s d (dm Q) = b) by (eapply step_length_unique; left; split; [exact G1|lra|exact H1|lra]). rewrite E. reflexivity.
  - rewrite fsl_1000. assert (G : 1000 <= fsl_t 1000 s d (dm Q)).
    { unfold fsl_t. destruct (max_greatest (test_t 1000 s d) (dm Q) Hm) as [_ [i0 [Hi0 E0]]]. rewrite <- E0. pose proof (Hs i0 Hi0).
      destruct (Rlt_dec (d i0) 0) as [D|D]; [|rewrite test_pos by (auto; lra); lra]. rewrite test_neg by auto.
      pose proof (proj1 H1 i0 Hi0) as X. assert (E : s i0 = s i0 / d i0 * d i0) by (field; lra). nra. }
    rewrite !Rmin_right by lra. reflexivity.
Qed.

(** ** The linear systems *)

Section Q.
Variable Q : QPdata.
Hypothesis Dn : (0 <= dn Q)%Z.
Hypothesis Dm : (1 <= dm Q)%Z.
Hypothesis Dp : (0 <= dp Q)%Z.
Notation n := (dn Q).
Notation m := (dm Q).
Notation p := (dp Q).
Notation N := (n + p + m)%Z.

Lemma Phi_kkt w a c : m_Phi Q w a c = kkt_matrix Q w a c.
Proof.
  unfold m_Phi, kkt_matrix.
  repeat match goal with
  | |- context[(?a <? ?b)%Z] => destruct (Z.ltb_spec a b); try lia
  | |- context[(?a =? ?b)%Z] => destruct (Z.eqb_spec a b); try lia
  end; try reflexivity. subst. reflexivity.
Qed.

Lemma sum_parts w i D : Sum N (fun j => m_Phi Q w i j * D j) = Sum N (fun j => kkt_matrix Q w i j * stack Q D (fun k => D (n + k)%Z) (fun k => D (n + p + k)%Z) j).
Proof.
  apply Sum_ext. intros j Hj. rewrite Phi_kkt. f_equal. unfold stack. destruct (Z.ltb_spec j n); [reflexivity|]. destruct (Z.ltb_spec j (n + p)); f_equal; lia.
Qed.

Lemma solution_parts w r1 r2 r3 D : m_solution N (m_Phi Q w) (m_stack Q r1 r2 r3) D <->
  (forall j, (0 <= j < n)%Z -> Sum n (fun c => dP Q j c * D c) + Sum p (fun k => dA Q k j * D (n + k)%Z) + Sum m (fun i => dG Q i j * D (n + p + i)%Z) = r1 j) /\
  (forall k, (0 <= k < p)%Z -> Sum n (fun c => dA Q k c * D c) = r2 k) /\
  (forall i, (0 <= i < m)%Z -> Sum n (fun c => dG Q i c * D c) - w i * D (n + p + i)%Z = r3 i).
Proof.
  assert (Dm' : (0 <= m)%Z) by lia. split.
  - intros H. split; [|split].
    + intros j Hj. specialize (H j ltac:(lia)). rewrite sum_parts, app_x in H by auto. rewrite H. unfold m_stack. destruct (Z.ltb_spec j n); [reflexivity|lia].
    + intros k Hk. specialize (H (n + k)%Z ltac:(lia)). rewrite sum_parts, app_y in H by auto. rewrite H. unfold m_stack. destruct (Z.ltb_spec (n + k) n); [lia|]. destruct (Z.ltb_spec (n + k) (n + p)); [|lia]. f_equal; lia.
    + intros i Hi. specialize (H (n + p + i)%Z ltac:(lia)). rewrite sum_parts, app_z in H by auto. rewrite H. unfold m_stack. destruct (Z.ltb_spec (n + p + i) n); [lia|]. destruct (Z.ltb_spec (n + p + i) (n + p)); [lia|]. f_equal; lia.
  - intros [H1 [H2 H3]] i Hi. rewrite sum_parts. unfold m_stack. destruct (Z.ltb_spec i n); [|destruct (Z.ltb_spec i (n + p))].
    + rewrite app_x by (auto; lia). apply H1. lia.
    + rewrite <- (H2 (i - n)%Z) by lia. rewrite <- (app_y Q Dn Dm' Dp w D (fun k => D (n + k)%Z) (fun k => D (n + p + k)%Z)) by lia. replace (n + (i - n))%Z with i by lia. reflexivity.
    + rewrite <- (H3 (i - n - p)%Z) by lia. rewrite <- (app_z Q Dn Dm' Dp w D (fun k => D (n + k)%Z) (fun k => D (n + p + k)%Z)) by lia. replace (n + p + (i - n - p))%Z with i by lia. reflexivity.
Qed.

Lemma backslash_regular ord w r D : order_of N ord -> regular_order N (kkt_matrix Q w) ord -> m_solution N (m_Phi Q w) r D -> m_backslash N (m_Phi Q w) r D.
Proof.
  intros HO HR H. split; [exact H|]. intros D' H' i Hi. apply (regular_inj N (kkt_matrix Q w) ord D' HO HR); [|exact Hi].
  intros a Ha. rewrite <- (H' a Ha). apply Sum_ext. intros c Hc. rewrite Phi_kkt. reflexivity.
Qed.

Lemma backslash_unique w w' r r' D D' : (forall i, (0 <= i < m)%Z -> w i = w' i) -> (forall a, (0 <= a < N)%Z -> r a = r' a) ->
  m_backslash N (m_Phi Q w) r D -> m_backslash N (m_Phi Q w') r' D' -> forall i, (0 <= i < N)%Z -> D i = D' i.
Proof.
  intros Hw Hr [H1 U1] [H2 _] i Hi. apply Rminus_diag_uniq. apply (U1 (fun a => D a - D' a)); [|exact Hi]. intros a Ha.
  rewrite (Sum_ext _ _ (fun j => m_Phi Q w a j * D j - m_Phi Q w' a j * D' j)).
  - rewrite Sum_minus, (H1 a Ha), (H2 a Ha), (Hr a Ha). ring.
  - intros c Hc. assert (E : m_Phi Q w a c = m_Phi Q w' a c); [|rewrite E; ring]. unfold m_Phi. destruct (_ <? _)%Z; [reflexivity|]. destruct (Z.ltb_spec a (n + p)); [reflexivity|].
    destruct (_ <? _)%Z; [reflexivity|]. destruct (_ <? _)%Z; [reflexivity|]. destruct (_ =? _)%Z; [|reflexivity]. rewrite Hw; [reflexivity|lia].
Qed.

(** ** The direction *)

Section At.
Variable v : vars.
Hypothesis HI : interior_vars Q v.

Lemma lambda_sq i : (0 <= i < m)%Z -> m_lambda v i * m_lambda v i = vs v i * vz v i.
Proof.
  intros Hi. destruct (HI i Hi) as [Hs Hz]. unfold m_lambda. transitivity ((sqrt (vs v i) * sqrt (vs v i)) * (sqrt (vz v i) * sqrt (vz v i))); [ring|].
  rewrite !sqrt_sqrt by lra. reflexivity.
Qed.
Lemma WTW_eq i : (0 <= i < m)%Z -> m_WTW v i = vs v i / vz v i.
Proof.
  intros Hi. destruct (HI i Hi) as [Hs Hz]. unfold m_WTW, m_W. pose proof (sqrt_lt_R0 _ Hz).
  rewrite <- (sqrt_sqrt (vs v i)) at 3 by lra. rewrite <- (sqrt_sqrt (vz v i)) at 3 by lra. field. lra.
Qed.
Lemma Wds_eq ds i : (0 <= i < m)%Z -> m_Wds v ds i = ds i / vz v i.
Proof.
  intros Hi. destruct (HI i Hi) as [Hs Hz]. unfold m_Wds, m_W, m_lambda. pose proof (sqrt_lt_R0 _ Hz). pose proof (sqrt_lt_R0 _ Hs).
  rewrite <- (sqrt_sqrt (vz v i)) at 3 by lra. field. lra.
Qed.
Lemma mu_eq : m_mu Q v = gap Q (vs v) (vz v).
Proof. unfold m_mu, gap. f_equal. apply Sum_ext. apply lambda_sq. Qed.
Lemma scaled_product a b i : (0 <= i < m)%Z -> (m_invW v i * a) * (m_W v i * b) = a * b.
Proof.
  intros Hi. destruct (HI i Hi) as [Hs Hz]. unfold m_invW. pose proof (sqrt_lt_R0 _ Hz). pose proof (sqrt_lt_R0 _ Hs).
  assert (m_W v i <> 0). { unfold m_W, Rdiv. rewrite Rmult_1_l. apply Rmult_integral_contrapositive. split; [lra|]. apply Rinv_neq_0_compat. lra. } field. auto.
Qed.

(** The Newton direction as the prototype computes it. *)
Lemma direction_Delta ord e rc ds d : order_of N ord -> regular_at Q ord v -> no_change Q e -> direction Q e v rc d -> (forall i, (0 <= i < m)%Z -> ds i = rc i) ->
  let D := stack Q (vx d) (vy d) (vz d) in
  m_Delta Q v ds D /\ (forall i, (0 <= i < n)%Z -> D i = vx d i) /\ (forall i, (0 <= i < p)%Z -> D (n + i)%Z = vy d i) /\
  (forall i, (0 <= i < m)%Z -> m_Dz Q D i = vz d i) /\ (forall i, (0 <= i < m)%Z -> m_Ds Q v ds D i = vs d i).
Proof.
  intros HO HR He [X Y Z_ S_] Hds D.
  assert (Ex : forall i, (0 <= i < n)%Z -> D i = vx d i) by (intros i Hi; unfold D, stack; destruct (Z.ltb_spec i n); [reflexivity|lia]).
  assert (Ey : forall i, (0 <= i < p)%Z -> D (n + i)%Z = vy d i).
  { intros i Hi. unfold D, stack. destruct (Z.ltb_spec (n + i) n); [lia|]. destruct (Z.ltb_spec (n + i) (n + p)); [f_equal; lia|lia]. }
  assert (Ez : forall i, (0 <= i < m)%Z -> D (n + p + i)%Z = vz d i).
  { intros i Hi. unfold D, stack. destruct (Z.ltb_spec (n + p + i) n); [lia|]. destruct (Z.ltb_spec (n + p + i) (n + p)); [lia|f_equal; lia]. }
  assert (Es : forall i, (0 <= i < m)%Z -> m_Ds Q v ds D i = vs d i).
  { intros i Hi. unfold m_Ds, m_Dz. rewrite Ez, Wds_eq, WTW_eq, Hds by auto. rewrite <- (S_ i Hi). destruct (HI i Hi). field. lra. }
  split; [|auto]. apply (backslash_regular ord); [exact HO| |].
  - unfold regular_at in HR. destruct HR as [L [Dg [R1 [R2 [R3 R4]]]]]. exists L, Dg. split; [exact R1|]. split; [exact R2|]. split; [|exact R4]. intros i k Hi Hk. rewrite <- (R3 i k Hi Hk).
    destruct HO as [HO _]. pose proof (HO i Hi). pose proof (HO k Hk). unfold kkt_matrix. repeat (match goal with |- context[(?a <? ?b)%Z] => destruct (Z.ltb_spec a b) end; try reflexivity).
    destruct (_ =? _)%Z; [|reflexivity]. rewrite WTW_eq; [reflexivity|lia].
  - apply solution_parts. split; [|split].
    + intros j Hj. specialize (X j Hj). rewrite He in X by lia. rewrite (Sum_ext n _ (fun c => dP Q j c * vx d c)) by (intros; rewrite Ex by auto; reflexivity).
      rewrite (Sum_ext p _ (fun k => dA Q k j * vy d k)) by (intros; rewrite Ey by auto; reflexivity). rewrite (Sum_ext m _ (fun i => dG Q i j * vz d i)) by (intros; rewrite Ez by auto; reflexivity).
      unfold res_dual in X. unfold m_rx. lra.
    + intros k Hk. specialize (Y k Hk). rewrite He in Y by lia. rewrite (Sum_ext n _ (fun c => dA Q k c * vx d c)) by (intros; rewrite Ex by auto; reflexivity). unfold res_eq in Y. unfold m_ry. lra.
    + intros i Hi. specialize (Z_ i Hi). rewrite He in Z_ by lia. rewrite (Sum_ext n _ (fun c => dG Q i c * vx d c)) by (intros; rewrite Ex by auto; reflexivity). unfold res_in in Z_. unfold m_rz.
      pose proof (Es i Hi) as X1. unfold m_Ds, m_Dz in X1. lra.
Qed.
End At.

(** ** Extensionality and determinism of the prototype *)

Lemma fsl_ext s s' d d' : (forall i, (0 <= i < m)%Z -> s i = s' i) -> (forall i, (0 <= i < m)%Z -> d i = d' i) ->
  m_findsteplength s d m = m_findsteplength s' d' m.
Proof. intros H1 H2. unfold m_findsteplength. f_equal. apply max_ext; [lia|]. intros i Hi. unfold m_test. rewrite H1, H2 by auto. reflexivity. Qed.

Section Ext.
Variables v w : vars.
Hypothesis E : vars_eq Q v w.

Lemma sum_x f : Sum n (fun j => f j * vx v j) = Sum n (fun j => f j * vx w j).
Proof. apply Sum_ext. intros i Hi. rewrite (ve_x _ _ _ E) by auto. reflexivity. Qed.
Lemma sum_y f : Sum p (fun j => f j * vy v j) = Sum p (fun j => f j * vy w j).
Proof. apply Sum_ext. intros i Hi. rewrite (ve_y _ _ _ E) by auto. reflexivity. Qed.
Lemma sum_z f : Sum m (fun j => f j * vz v j) = Sum m (fun j => f j * vz w j).
Proof. apply Sum_ext. intros i Hi. rewrite (ve_z _ _ _ E) by auto. reflexivity. Qed.
Lemma rx_ext j : m_rx Q v j = m_rx Q w j.
Proof. unfold m_rx. rewrite (sum_x (fun k => dP Q j k)), (sum_y (fun k => dA Q k j)), (sum_z (fun i => dG Q i j)). reflexivity. Qed.
Lemma ry_ext j : m_ry Q v j = m_ry Q w j.
Proof. unfold m_ry. rewrite (sum_x (fun k => dA Q j k)). reflexivity. Qed.
Lemma rz_ext i : (0 <= i < m)%Z -> m_rz Q v i = m_rz Q w i.
Proof. intros Hi. unfold m_rz. rewrite (sum_x (fun k => dG Q i k)), (ve_s _ _ _ E) by auto. reflexivity. Qed.
Lemma prod_ext : Sum m (fun i => vs v i * vz v i) = Sum m (fun i => vs w i * vz w i).
Proof. apply Sum_ext. intros i Hi. rewrite (ve_s _ _ _ E), (ve_z _ _ _ E) by auto. reflexivity. Qed.
Lemma stops_ext : m_stops Q v -> m_stops Q w.
Proof.
  unfold m_stops. rewrite prod_ext. intros [H1 H2]. split; [|exact H2]. eapply Rle_lt_trans; [|exact H1]. right. f_equal. f_equal; [f_equal|]; apply Sum_ext; intros i Hi; rewrite ?rx_ext, ?ry_ext, ?(rz_ext i Hi); reflexivity.
Qed.
Lemma W_ext i : (0 <= i < m)%Z -> m_W v i = m_W w i.
Proof. intros Hi. unfold m_W. rewrite (ve_s _ _ _ E), (ve_z _ _ _ E) by auto. reflexivity. Qed.
Lemma lambda_ext i : (0 <= i < m)%Z -> m_lambda v i = m_lambda w i.
Proof. intros Hi. unfold m_lambda. rewrite (ve_s _ _ _ E), (ve_z _ _ _ E) by auto. reflexivity. Qed.
Lemma mu_ext : m_mu Q v = m_mu Q w.
Proof. unfold m_mu. f_equal. apply Sum_ext. intros i Hi. rewrite lambda_ext by auto. reflexivity. Qed.
Lemma Delta_ext ds ds' D D' : (forall i, (0 <= i < m)%Z -> ds i = ds' i) -> m_Delta Q v ds D -> m_Delta Q w ds' D' ->
  (forall i, (0 <= i < n)%Z -> D i = D' i) /\ (forall i, (0 <= i < p)%Z -> D (n + i)%Z = D' (n + i)%Z) /\
  (forall i, (0 <= i < m)%Z -> m_Dz Q D i = m_Dz Q D' i) /\ (forall i, (0 <= i < m)%Z -> m_Ds Q v ds D i = m_Ds Q w ds' D' i).
Proof.
  intros Hds H1 H2.
  assert (EW : forall i, (0 <= i < m)%Z -> m_Wds v ds i = m_Wds w ds' i) by (intros i Hi; unfold m_Wds; rewrite W_ext, lambda_ext, Hds by auto; reflexivity).
  assert (ET : forall i, (0 <= i < m)%Z -> m_WTW v i = m_WTW w i) by (intros i Hi; unfold m_WTW; rewrite W_ext by auto; reflexivity).
  assert (ED : forall i, (0 <= i < N)%Z -> D i = D' i).
  { apply (backslash_unique (m_WTW v) (m_WTW w) _ _ D D' ET) with (2 := H1) (3 := H2). intros a Ha. unfold m_stack. destruct (Z.ltb_spec a n); [rewrite rx_ext; reflexivity|].
    destruct (Z.ltb_spec a (n + p)); [rewrite ry_ext; reflexivity|]. rewrite rz_ext, EW by lia. reflexivity. }
  split; [intros; apply ED; lia|]. split; [intros; apply ED; lia|]. split; [intros; apply ED; lia|].
  intros i Hi. unfold m_Ds, m_Dz. rewrite EW, ET, ED by lia. reflexivity.
Qed.

Lemma sigma_ds_unique sd sg sg1 sg2 ds1 ds2 : m_sigma_ds Q v sd sg sg1 ds1 -> m_sigma_ds Q w sd sg sg2 ds2 ->
  sg1 = sg2 /\ forall i, (0 <= i < m)%Z -> ds1 i = ds2 i.
Proof.
  intros [D1 H1 dsa HD1 Dz1 Ds1 ap1 ad1 rho1 Hs1 Hd1|H1 Hs1 Hd1] [D2 H2 dsb HD2 Dz2 Ds2 ap2 ad2 rho2 Hs2 Hd2|H2 Hs2 Hd2]; try (exfalso; lra).
  - destruct (Delta_ext dsa dsb D1 D2) as [_ [_ [Ez Es]]]; [intros i Hi; unfold dsa, dsb; rewrite lambda_ext by auto; reflexivity|exact HD1|exact HD2|].
    fold Dz1 Dz2 in Ez. fold Ds1 Ds2 in Es. assert (ap1 = ap2) by (unfold ap1, ap2; apply fsl_ext; auto; apply E). assert (ad1 = ad2) by (unfold ad1, ad2; apply fsl_ext; auto; apply E).
    assert (Er : rho1 = rho2).
    { unfold rho1, rho2. rewrite prod_ext. f_equal. apply Sum_ext. intros i Hi. rewrite H, H0, Ez, Es, (ve_s _ _ _ E), (ve_z _ _ _ E) by auto. reflexivity. }
    assert (Esg : sg1 = sg2) by (rewrite Hs1, Hs2, Er; reflexivity). split; [exact Esg|]. intros i Hi. rewrite Hd1, Hd2 by auto. unfold m_invW. rewrite lambda_ext, W_ext, Ez, Es, mu_ext, Esg by auto. reflexivity.
  - split; [congruence|]. intros i Hi. rewrite Hd1, Hd2, lambda_ext, mu_ext by auto. congruence.
Qed.

Lemma pass_unique sd sg v1 w1 ap1 ap2 ad1 ad2 sg1 sg2 : m_pass Q v sd sg v1 ap1 ad1 sg1 -> m_pass Q w sd sg w1 ap2 ad2 sg2 ->
  vars_eq Q v1 w1 /\ ap1 = ap2 /\ ad1 = ad2 /\ sg1 = sg2.
Proof.
  intros [ds1 [D1 [S1 [H1 [A1 [B1 [X1 [Y1 [Sl1 Z1]]]]]]]]] [ds2 [D2 [S2 [H2 [A2 [B2 [X2 [Y2 [Sl2 Z2]]]]]]]]].
  destruct (sigma_ds_unique _ _ _ _ _ _ S1 S2) as [Esg Eds]. destruct (Delta_ext ds1 ds2 D1 D2 Eds H1 H2) as [Ex [Ey [Ez Es]]].
  assert (Ea : ap1 = ap2) by (rewrite A1, A2; do 2 f_equal; apply fsl_ext; auto; apply E). assert (Eb : ad1 = ad2) by (rewrite B1, B2; do 2 f_equal; apply fsl_ext; auto; apply E).
  split; [|auto]. destruct E as [E1 E2 E3 E4]. split; intros i Hi.
  - rewrite X1, X2, E1, Ex, Ea by auto. reflexivity.
  - rewrite Y1, Y2, E2, Ey, Eb by auto. reflexivity.
  - rewrite Z1, Z2, E3, Ez, Eb by auto. reflexivity.
  - rewrite Sl1, Sl2, E4, Es, Ea by auto. reflexivity.
Qed.
End Ext.

Lemma min_ext f g : (forall i, (0 <= i < m)%Z -> f i = g i) -> m_min f m = m_min g m.
Proof. intros H. unfold m_min. f_equal. apply max_ext; [lia|]. intros i Hi. rewrite H by auto. reflexivity. Qed.

Lemma init_unique v w : m_init Q v -> m_init Q w -> vars_eq Q v w.
Proof.
  intros [X [HX [X1 [X2 [X3 X4]]]]] [Y [HY [Y1 [Y2 [Y3 Y4]]]]].
  assert (EXY : forall i, (0 <= i < N)%Z -> X i = Y i) by (eapply backslash_unique; [| |exact HX|exact HY]; reflexivity).
  assert (Ex : forall i, (0 <= i < n)%Z -> vx v i = vx w i) by (intros i Hi; rewrite X1, Y1 by auto; apply EXY; lia).
  assert (Ez : forall i, Sum n (fun j => dG Q i j * vx v j) - dh Q i = Sum n (fun j => dG Q i j * vx w j) - dh Q i).
  { intros i. f_equal. apply Sum_ext. intros j Hj. rewrite Ex by auto. reflexivity. }
  split; [exact Ex|intros i Hi; rewrite X2, Y2 by auto; apply EXY; lia| |]; intros i Hi.
  - rewrite X4, Y4 by auto. rewrite (min_ext _ (fun i => Sum n (fun j => dG Q i j * vx w j) - dh Q i)) by (intros; apply Ez). rewrite Ez. reflexivity.
  - rewrite X3, Y3 by auto. rewrite (min_ext (fun i => - (Sum n (fun j => dG Q i j * vx v j) - dh Q i)) (fun i => - (Sum n (fun j => dG Q i j * vx w j) - dh Q i))) by (intros; rewrite Ez; reflexivity). rewrite Ez. reflexivity.
Qed.

(** ** Start, step and stopping test of the two programs *)

Lemma min_least f : least f m (m_min f m).
Proof.
  destruct (max_greatest (fun i => - f i) m ltac:(lia)) as [H1 [i [Hi Ei]]]. unfold m_min. split; [intros j Hj; specialize (H1 j Hj); lra|]. exists i. split; [exact Hi|lra].
Qed.

(** The starting points agree. *)
Theorem C72_start ord e v : order_of N ord -> regular_order N (kkt_matrix Q (fun _ => 1)) ord -> no_change Q e -> start_point Q e v -> m_init Q v.
Proof.
  intros HO HR He [[t [X [Y Z_]]] [a [HA S_]] [b [HB T]]]. exists (stack Q (vx v) (vy v) t).
  assert (Ex : forall i, (0 <= i < n)%Z -> stack Q (vx v) (vy v) t i = vx v i) by (intros i Hi; unfold stack; destruct (Z.ltb_spec i n); [reflexivity|lia]).
  assert (Ey : forall i, (0 <= i < p)%Z -> stack Q (vx v) (vy v) t (n + i)%Z = vy v i).
  { intros i Hi. unfold stack. destruct (Z.ltb_spec (n + i) n); [lia|]. destruct (Z.ltb_spec (n + i) (n + p)); [f_equal; lia|lia]. }
  assert (Ez : forall i, (0 <= i < m)%Z -> stack Q (vx v) (vy v) t (n + p + i)%Z = t i).
  { intros i Hi. unfold stack. destruct (Z.ltb_spec (n + p + i) n); [lia|]. destruct (Z.ltb_spec (n + p + i) (n + p)); [lia|f_equal; lia]. }
  split; [|split; [intros i Hi; rewrite Ex by auto; reflexivity|split; [intros i Hi; rewrite Ey by auto; reflexivity|]]].
  - apply (backslash_regular ord); auto. apply solution_parts. split; [|split].
    + intros j Hj. rewrite <- (X j Hj), He by lia. rewrite (Sum_ext n _ (fun c => dP Q j c * vx v c)) by (intros; rewrite Ex by auto; reflexivity).
      rewrite (Sum_ext p _ (fun k => dA Q k j * vy v k)) by (intros; rewrite Ey by auto; reflexivity). rewrite (Sum_ext m _ (fun i => dG Q i j * t i)) by (intros; rewrite Ez by auto; reflexivity). ring.
    + intros k Hk. rewrite <- (Y k Hk), He by lia. rewrite (Sum_ext n _ (fun c => dA Q k c * vx v c)) by (intros; rewrite Ex by auto; reflexivity). ring.
    + intros i Hi. rewrite <- (Z_ i Hi), He, Ez by lia. rewrite (Sum_ext n _ (fun c => dG Q i c * vx v c)) by (intros; rewrite Ex by auto; reflexivity). ring.
  - cbv zeta. set (z := fun i => Sum n (fun j => dG Q i j * vx v j) - dh Q i).
    assert (Esl : forall i, - z i = slack Q (vx v) i) by (intros i; unfold z, slack; ring).
    assert (Ea : m_min (fun i => - z i) m = a) by (eapply least_unique; [apply min_least|]; eapply least_ext; [|exact HA]; intros i Hi; symmetry; apply Esl).
    assert (Eb : m_min z m = - b).
    { destruct (min_least z) as [L1 [i [Hi Ei]]]. destruct HB as [B1 [k [Hk Ek]]]. pose proof (L1 k Hk). pose proof (B1 i Hi). rewrite <- Esl in *. lra. }
    rewrite Ea, Eb. split; intros i Hi.
    + rewrite (S_ i Hi), Esl. destruct (Rlt_dec 0 a), (Rlt_dec (- a) 0); lra.
    + rewrite (T i Hi), <- Esl. destruct (Rlt_dec b 0), (Rlt_dec (- - b) 0); lra.
Qed.

(** A step of the C solver without regularised pivots is a pass of the prototype when the boundary is met. *)
Theorem C72_step ord e sd sg v v' ap ad sg' : order_of N ord -> regular_at Q ord v -> interior_vars Q v -> no_change Q e -> meets_boundary Q sd sg v ->
  method_step Q e sd sg v v' ap ad sg' -> m_pass Q v sd sg v' ap ad sg'.
Proof.
  intros HO HR HI He [HB1 HB2] [d [Hd [Hap [Had [M1 M2 M3 M4]]]]].
  assert (Z0 : forall rc d, direction Q e v rc d -> direction Q (fun _ => 0) v rc d).
  { intros rc d0 [X Y Z_ S_]. split; auto; [intros j Hj; rewrite <- (X j Hj)|intros j Hj; rewrite <- (Y j Hj)|intros j Hj; rewrite <- (Z_ j Hj)]; rewrite He by lia; reflexivity. }
  assert (Hd0 : step_direction Q (fun _ => 0) sd sg v d sg').
  { destruct Hd as [dp0 a b H1 H2 H3 H4 H5 H6|H1 H2 H3]; [eapply predictor_corrector; eauto|eapply centering; eauto]. }
  destruct (HB2 d sg' Hd0) as [L1 L2]. assert (Ps : forall i, (0 <= i < m)%Z -> 0 < vs v i) by (intros i Hi; apply HI; auto). assert (Pz : forall i, (0 <= i < m)%Z -> 0 < vz v i) by (intros i Hi; apply HI; auto).
  assert (G : exists rc, direction Q e v rc d /\ m_sigma_ds Q v sd sg sg' rc).
  { destruct Hd as [dp0 a b H1 H2 H3 H4 H5 H6|H1 H2 H3].
    - eexists. split; [exact H6|].
      destruct (direction_Delta v HI ord e _ (fun i => - m_lambda v i * m_lambda v i) dp0 HO HR He H2) as [HD [_ [_ [Ez Es]]]].
      { intros i Hi. rewrite <- lambda_sq by auto. ring. }
      destruct (HB1 H1 dp0 (Z0 _ _ H2)) as [K1 K2].
      assert (Ea : m_findsteplength (vs v) (m_Ds Q v (fun i => - m_lambda v i * m_lambda v i) (stack Q (vx dp0) (vy dp0) (vz dp0))) m = a).
      { rewrite (fsl_ext _ (vs v) _ (vs dp0)) by auto. eapply step_length_unique; [apply fsl_length; auto|exact H3]. }
      assert (Eb : m_findsteplength (vz v) (m_Dz Q (stack Q (vx dp0) (vy dp0) (vz dp0))) m = b).
      { rewrite (fsl_ext _ (vz v) _ (vz dp0)) by auto. eapply step_length_unique; [apply fsl_length; auto|exact H4]. }
      eapply m_predictor; [exact H1|exact HD| |].
      + cbv zeta. rewrite Ea, Eb, H5. do 3 f_equal. unfold reduction. f_equal. apply Sum_ext. intros i Hi. rewrite Es, Ez by auto. reflexivity.
      + intros i Hi. cbv beta. rewrite scaled_product, Es, Ez, mu_eq by auto. rewrite <- lambda_sq by auto. ring.
    - eexists. split; [exact H3|]. apply m_center; auto. intros i Hi. cbv beta. rewrite mu_eq, <- lambda_sq, H2 by auto. ring. }
  destruct G as [rc [Hdir Hsg]]. destruct (direction_Delta v HI ord e rc rc d HO HR He Hdir) as [HD [Ex [Ey [Ez Es]]]]; [reflexivity|].
  exists rc, (stack Q (vx d) (vy d) (vz d)). split; [exact Hsg|]. split; [exact HD|]. cbv zeta. repeat split.
  - rewrite (fsl_ext _ (vs v) _ (vs d)) by auto. destruct Hap as [a [A1 ->]]. destruct (fsl_damped Q (vs v) (vs d) ltac:(lia) Ps L1) as [a' [A2 ->]].
    rewrite (step_length_unique _ _ _ _ _ A1 A2). reflexivity.
  - rewrite (fsl_ext _ (vz v) _ (vz d)) by auto. destruct Had as [a [A1 ->]]. destruct (fsl_damped Q (vz v) (vz d) ltac:(lia) Pz L2) as [a' [A2 ->]].
    rewrite (step_length_unique _ _ _ _ _ A1 A2). reflexivity.
  - intros i Hi. rewrite M1, Ex by auto. reflexivity.
  - intros i Hi. rewrite M2, Ey by auto. reflexivity.
  - intros i Hi. rewrite M4, Es by auto. reflexivity.
  - intros i Hi. rewrite M3, Ez by auto. reflexivity.
Qed.

(** The stopping test of the C solver with its default tolerances implies that of the prototype. *)
Theorem C72_stop v : passes_at Q (1 / 1000000) (1 / 1000000) v -> m_stops Q v.
Proof.
  intros [H1 [H2 [H3 H4]]]. split; [|unfold gap in H4; lra].
  assert (S3 : 0 < sqrt 3) by (apply sqrt_lt_R0; lra). assert (S3' : sqrt 3 * sqrt 3 = 3) by (apply sqrt_sqrt; lra). set (t := 1 / 1000000 / sqrt 3) in *.
  assert (Et : t * t = 1 / 1000000 * (1 / 1000000) / (sqrt 3 * sqrt 3)) by (unfold t; field; lra). rewrite S3' in Et.
  assert (Tp : 0 < t) by (unfold t; apply Rdiv_lt_0_compat; lra).
  assert (SQ : forall f k, Euclid f k < t -> Sum k (fun i => f i * f i) < t * t) by (intros f k H; rewrite <- Euclid_sq; pose proof (Euclid_nonneg f k); nra).
  assert (E1 : Sum n (fun j => m_rx Q v j * m_rx Q v j) = Sum n (fun j => res_dual Q (vx v) (vy v) (vz v) j * res_dual Q (vx v) (vy v) (vz v) j)) by (apply Sum_ext; intros; unfold m_rx, res_dual; ring).
  assert (E2 : Sum m (fun j => m_rz Q v j * m_rz Q v j) = Sum m (fun j => res_in Q (vx v) (vs v) j * res_in Q (vx v) (vs v) j)) by (apply Sum_ext; intros; unfold m_rz, res_in; ring).
  assert (E3 : Sum p (fun j => m_ry Q v j * m_ry Q v j) = Sum p (fun j => res_eq Q (vx v) j * res_eq Q (vx v) j)) by (apply Sum_ext; intros; unfold m_ry, res_eq; ring).
  pose proof (SQ _ _ H1) as F1. pose proof (SQ _ _ H2) as F2.
  assert (F3 : Sum p (fun j => res_eq Q (vx v) j * res_eq Q (vx v) j) < t * t).
  { destruct (Z.eq_dec p 0) as [Ep|Ep]; [|apply SQ, H3, Ep]. rewrite Ep. unfold Sum. rewrite zr_nil by lia. cbn [sumr]. nra. }
  rewrite E1, E2, E3. rewrite <- (sqrt_square (1 / 1000000)) by lra. apply sqrt_lt_1_alt. split; [|lra].
  assert (NN : forall f k, 0 <= Sum k (fun i => f i * f i)) by (intros f k; apply Sum_nonneg; intros; apply Rle_0_sqr).
  pose proof (NN (res_dual Q (vx v) (vy v) (vz v)) n). pose proof (NN (res_in Q (vx v) (vs v)) m). pose proof (NN (res_eq Q (vx v)) p). lra.
Qed.
End Q.

(** ** Whole solves *)

Lemma checked_same Q : symmetric Q -> same_qp Q (m_checkinputs Q).
Proof. intros HS. split; auto. intros i j Hi Hj. cbn [dP m_checkinputs]. rewrite (HS j i) by auto. field. Qed.

Lemma same_step_direction Q Q' e sd sg v d sg' : same_qp Q Q' -> step_direction Q e sd sg v d sg' -> step_direction Q' e sd sg v d sg'.
Proof.
  intros HQ H1. pose proof HQ as [En Em Ep _ _ _ _ _ _]. destruct H1 as [dp1 a b H4 H5 H6 H7 H8 H9|H4 H5 H6].
  - apply (predictor_corrector Q' e sd sg v d sg' dp1 a b); auto.
    + apply (same_direction Q Q' HQ). exact H5.
    + rewrite <- Em. exact H6.
    + rewrite <- Em. exact H7.
    + unfold reduction in *. rewrite <- Em. exact H8.
    + rewrite <- (same_gap Q Q' HQ). apply (same_direction Q Q' HQ). exact H9.
  - apply centering; auto. rewrite <- (same_gap Q Q' HQ). apply (same_direction Q Q' HQ). exact H6.
Qed.

Lemma same_meets Q Q' sd sg v : same_qp Q Q' -> meets_boundary Q sd sg v -> meets_boundary Q' sd sg v.
Proof.
  intros HQ [H1 H2]. pose proof (same_sym _ _ HQ) as HQ'. split.
  - intros L d Hd. rewrite <- (sq_m _ _ HQ). apply H1; auto. apply (same_direction Q' Q HQ'). exact Hd.
  - intros d sg' Hd. rewrite <- (sq_m _ _ HQ). apply (H2 d sg'). eapply same_step_direction; eauto.
Qed.

Lemma stops_dec Q v : {m_stops Q v} + {~ m_stops Q v}.
Proof.
  unfold m_stops. match goal with |- {?a < ?b /\ ?c <= ?d} + {_} => destruct (Rlt_dec a b); [destruct (Rle_dec c d); [left; auto|right; intros [? ?]; auto]|right; intros [? ?]; auto] end.
Qed.

Lemma first_stop Q (V : nat -> vars) j : exists k', (k' <= j)%nat /\ (forall i, (i < k')%nat -> ~ m_stops Q (V i)) /\ (m_stops Q (V k') \/ k' = j).
Proof.
  induction j as [|j [k' [H1 [H2 [H3|H3]]]]]; [exists O; repeat split; auto; intros; lia|exists k'; auto 6|]. subst k'.
  destruct (stops_dec Q (V j)) as [Hs|Hs]; [exists j; auto 6|]. exists (S j). split; [lia|]. split; [|auto]. intros i Hi. destruct (Nat.eq_dec i j) as [->|]; auto. apply H2. lia.
Qed.

Section Run.
Variables (amd : amd_t) (u : user R) (q : qp R) (c : Z) (q' : qp R) (k : nat) (V : nat -> vars) (sg ap ad : nat -> R).
Hypothesis HV : valid_user amd u.
Hypothesis HC : covered u.
Hypothesis HS : symmetric (user_qp u).
Hypothesis HT : solved amd u [] q c q' k V sg ap ad.
Hypothesis HR : regular_order (u_N u) (kkt_matrix (user_qp u) (fun _ => 1)) (order_in q).
Variable j : nat.
Hypothesis Hj : (j <= k)%nat.
Hypothesis HB : forall i, (i < j)%nat -> regular_at (user_qp u) (order_in q) (V i) /\ meets_boundary (user_qp u) (u_sigma_d u) (sg i) (V i).
Local Notation Q := (user_qp u).
Local Notation Q' := (m_checkinputs (user_qp u)).

(** The trace of the C solver consists of passes of the prototype. *)
Lemma run_passes : m_init Q' (V O) /\ sg O = 100 /\ forall i, (i < j)%nat -> m_pass Q' (V i) (u_sigma_d u) (sg i) (V (S i)) (ap i) (ad i) (sg (S i)).
Proof.
  destruct (dims_nonneg amd u HV) as [Dn [Dm Dp]]. pose proof (checked_same _ HS) as HQ. destruct HT as [codes [E1 [E2 M]]].
  destruct (C47_start_point amd u HV HC HS) as [q0 [E0 [HO [Eo [_ [e [[_ He] Hst]]]]]]]. rewrite E1 in E0. injection E0 as -> <-.
  destruct (user_dims u) as [D1 [D2 D3]]. assert (EN : u_N u = (dn Q + dp Q + dm Q)%Z) by (unfold u_N; rewrite D1, D2, D3; reflexivity).
  rewrite EN in HR, HO. specialize (He HR). split; [|split].
  - assert (I0 : m_init Q' (vars_of q)).
    { apply (C72_start Q' Dn ltac:(cbn; lia) Dp (order_in q) e); auto.
      + apply (same_regular Q Q' HQ (fun _ => 1) (order_in q) HO HR).
      + apply (same_start Q Q' HQ). exact Hst. }
    destruct (sm_from _ _ _ _ _ _ _ _ _ M) as [X0 Y0 Z0 S0]. destruct I0 as [X [HX [X1 [X2 [X3 X4]]]]]. exists X. split; [exact HX|]. cbv zeta in *.
    assert (Ez : forall i, Sum (dn Q') (fun j => dG Q' i j * vx (V O) j) - dh Q' i = Sum (dn Q') (fun j => dG Q' i j * vx (vars_of q) j) - dh Q' i).
    { intros i. f_equal. apply Sum_ext. intros a Ha. rewrite X0 by auto. reflexivity. }
    split; [intros i Hi; rewrite X0 by auto; apply X1; auto|]. split; [intros i Hi; rewrite Y0 by auto; apply X2; auto|]. split; intros i Hi.
    + rewrite S0, X3, Ez by auto. rewrite (min_ext Q' ltac:(cbn; lia) _ _ (fun i _ => f_equal Ropp (Ez i))). reflexivity.
    + rewrite Z0, X4, Ez by auto. rewrite (min_ext Q' ltac:(cbn; lia) _ _ (fun i _ => Ez i)). reflexivity.
  - rewrite (sm_sg _ _ _ _ _ _ _ _ _ M). apply (f_equal sigma) in Eo. exact Eo.
  - intros i Hi. destruct (sm_run _ _ _ _ _ _ _ _ _ M i ltac:(lia)) as [_ [e' [[_ He'] Hm]]]. destruct (HB i Hi) as [HRi HBi]. specialize (He' HRi).
    apply (C72_step Q' Dn ltac:(cbn; lia) Dp (order_in q) e'); auto.
    + apply (same_regular Q Q' HQ _ (order_in q) HO HRi).
    + apply (same_interior Q Q' HQ). apply (sm_int _ _ _ _ _ _ _ _ _ M). lia.
    + apply (same_meets Q Q'); auto.
    + apply (same_step Q Q' HQ). exact Hm.
Qed.

(** It is a run of the prototype up to the pass at which that stops. *)
Theorem C72_exists : exists k', (k' <= j)%nat /\ m_passes Q' (u_sigma_d u) k' V sg ap ad /\ (m_stops Q' (V k') \/ k' = j).
Proof.
  destruct run_passes as [H1 [H2 H3]]. destruct (first_stop Q' V j) as [k' [K1 [K2 K3]]]. exists k'. split; [exact K1|]. split; [|exact K3].
  split; auto. intros i Hi. split; [apply K2; exact Hi|apply H3; lia].
Qed.

(** Every run of the prototype visits the same points. *)
Theorem C72_agree k' V' sg' ap' ad' : m_passes Q' (u_sigma_d u) k' V' sg' ap' ad' ->
  forall i, (i <= j)%nat -> (i <= k')%nat -> vars_eq Q (V i) (V' i) /\ sg i = sg' i /\ forall l, (l < i)%nat -> ap l = ap' l /\ ad l = ad' l.
Proof.
  intros [I' S' P'] i. destruct (dims_nonneg amd u HV) as [Dn [Dm Dp]]. destruct run_passes as [H1 [H2 H3]]. pose proof (checked_same _ HS) as HQ.
  induction i as [|i IH]; intros Hi Hk.
  - split; [apply (same_vars Q' Q (same_sym _ _ HQ)); exact (init_unique Q' Dn ltac:(cbn; lia) Dp _ _ H1 I')|]. split; [congruence|]. intros; lia.
  - destruct (IH ltac:(lia) ltac:(lia)) as [EV [ES EA]]. destruct (P' i ltac:(lia)) as [_ HP]. rewrite <- ES in HP.
    destruct (pass_unique Q' Dn ltac:(cbn; lia) Dp _ _ (same_vars Q Q' HQ _ _ EV) _ _ _ _ _ _ _ _ _ _ (H3 i ltac:(lia)) HP) as [F1 [F2 [F3 F4]]].
    split; [apply (same_vars Q' Q (same_sym _ _ HQ)); exact F1|]. split; [exact F4|]. intros l Hl. destruct (Nat.eq_dec l i) as [->|]; [auto|apply EA; lia].
Qed.

(** A successful solve: the prototype stops no later and returns one of the points of the C solver. *)
Theorem C72_run k' V' sg' ap' ad' : c = 0%Z -> j = k -> m_run Q' (u_sigma_d u) k' V' sg' ap' ad' ->
  (k' <= k)%nat /\ m_stops Q' (V' k') /\ vars_eq Q (V k') (V' k').
Proof.
  intros Ec Ej [HP Hend]. pose proof (C72_agree _ _ _ _ _ HP) as HA. destruct (dims_nonneg amd u HV) as [Dn [Dm Dp]].
  pose proof HT as [codes [E1 [E2 M]]]. destruct (C47_start_point amd u HV HC HS) as [q0 [E0 [HO [Eo [Es _]]]]]. rewrite E1 in E0. injection E0 as -> <-.
  assert (Em : maxit (q_options q) = 100%Z) by (apply (f_equal maxit) in Eo; exact Eo).
  assert (Ei : IterationCount (q_stats q) = 0%Z) by (apply (f_equal IterationCount) in Es; exact Es).
  assert (Hk : (k < 100)%nat).
  { pose proof (sm_code _ _ _ _ _ _ _ _ _ M) as H0. pose proof (sm_limit _ _ _ _ _ _ _ _ _ M) as HL. rewrite Em, Ei, Z.add_0_l in *. destruct (Z.eqb_spec (Z.of_nat k) 100); [congruence|]. lia. }
  assert (HS1 : m_stops Q' (V k)).
  { apply (C72_stop Q'). apply (same_passes Q Q' (checked_same _ HS)). pose proof (sm_stop _ _ _ _ _ _ _ _ _ M ltac:(lia)) as HP1. unfold passes_here in HP1. cbn [car RA] in Eo. rewrite Eo in HP1.
    destruct (sm_to _ _ _ _ _ _ _ _ _ M) as [X1 X2 X3 X4]. cbn [vars_of vx vy vz vs] in *. unfold passes_at.
    apply (passes_ext Q (vx (V k)) (hx q') (vy (V k)) (hy q') (vz (V k)) (hz q') (vs (V k)) (hs q')); auto. }
  assert (L : (k' <= k)%nat).
  { destruct (Nat.le_gt_cases k' k) as [|G]; auto. exfalso. destruct (HA k ltac:(lia) ltac:(lia)) as [EV _]. destruct (mp_pass _ _ _ _ _ _ _ HP k ltac:(lia)) as [Hn _]. apply Hn.
    apply (stops_ext Q' (V k) (V' k)); auto. apply (same_vars Q Q' (checked_same _ HS)). exact EV. }
  split; [exact L|]. split; [destruct Hend as [[_ H]|H]; [exact H|lia]|]. apply HA; lia.
Qed.
End Run.

(** ** A case: minimise x^2 + 3x subject to -1 <= x <= 1, eliminated in the natural order *)

Definition interval : user R :=
  mkUser 1 2 0 (zs [0; 1]%Z) (zs [0]%Z) (fs RA [2]%Z) None None None (zs [0; 2]%Z) (zs [0; 1]%Z) (fs RA [1; -1]%Z)
    (fs RA [3]%Z) (fs RA [1; 1]%Z) None 0%R (Some (zs [0; 1; 2]%Z)).
Local Notation Qi := (user_qp interval).

Lemma interval_valid amd : valid_user amd interval.
Proof.
  constructor; cbn [interval u_n u_m u_p u_Pjc u_Pir u_Ppr u_Gjc u_Gir u_Gpr u_c u_h u_perm].
  - lia.
  - lia.
  - csc_concrete.
  - csc_concrete.
  - intros ajc air apr bb E. discriminate E.
  - intros i Hi. enum i; eexists; reflexivity.
  - intros i Hi. enum i; eexists; reflexivity.
  - exists 0%Z, 0%Z, (fofZ RA 2). split; [lia|]. left. exists 0%Z, 1%Z, 0%Z. cbn. repeat split; auto; lia.
  - change (u_N interval) with 3%Z. perm_concrete.
Qed.

Lemma interval_covered : covered interval.
Proof.
  intros i Hi. change (u_m interval) with 2%Z in Hi. enum i.
  - exists 0%Z, (fofZ RA 1). split; [cbn; lia|]. exists 0%Z, 2%Z, 0%Z. cbn. repeat split; auto; lia.
  - exists 0%Z, (fofZ RA (-1)). split; [cbn; lia|]. exists 0%Z, 2%Z, 1%Z. cbn. repeat split; auto; lia.
Qed.

Lemma Qi_P : dP Qi 0 0 = 2. Proof. cbv - [Rplus IZR]. lra. Qed.
Lemma Qi_G0 : dG Qi 0 0 = 1. Proof. cbv - [Rplus IZR Ropp]. lra. Qed.
Lemma Qi_G1 : dG Qi 1 0 = -1. Proof. cbv - [Rplus IZR Ropp]. lra. Qed.
Lemma Qi_c : dc Qi 0 = 3. Proof. cbv - [Rplus IZR Ropp]. lra. Qed.
Lemma Qi_h0 : dh Qi 0 = 1. Proof. cbv - [Rplus IZR Ropp]. lra. Qed.
Lemma Qi_h1 : dh Qi 1 = 1. Proof. cbv - [Rplus IZR Ropp]. lra. Qed.
Lemma Qi_sym : symmetric Qi.
Proof. intros i j Hi Hj. change (dn Qi) with 1%Z in *. enum i. enum j. reflexivity. Qed.

Ltac qi := change (dn Qi) with 1%Z in *; change (dm Qi) with 2%Z in *; change (dp Qi) with 0%Z in *;
  rewrite ?Sum0, ?Sum1, ?Sum2, ?Qi_P, ?Qi_G0, ?Qi_G1, ?Qi_c, ?Qi_h0, ?Qi_h1 in *.

Lemma matrix3 w a c : (0 <= a < 3)%Z -> (0 <= c < 3)%Z ->
  kkt_matrix Qi w a c = if (a =? 0)%Z then (if (c =? 0)%Z then 2 else if (c =? 1)%Z then 1 else -1)
    else if (a =? 1)%Z then (if (c =? 0)%Z then 1 else if (c =? 1)%Z then - w 0%Z else 0) else (if (c =? 0)%Z then -1 else if (c =? 1)%Z then 0 else - w 1%Z).
Proof. intros Ha Hc. enum a; enum c; cbv - [Rdiv Ropp Rplus Rmult IZR]; try lra; reflexivity. Qed.

Lemma Sum3 f : Sum 3 f = f 0%Z + f 1%Z + f 2%Z.
Proof. change (f 0%Z + (f 1%Z + (f 2%Z + 0)) = f 0%Z + f 1%Z + f 2%Z). ring. Qed.

Lemma interval_regular w ord : 1 / 1000 < w 0%Z -> 1 / 1000 < w 1%Z -> (forall i, (0 <= i < 3)%Z -> ord i = i) -> regular_order 3 (kkt_matrix Qi w) ord.
Proof.
  intros W0 W1 Ho. set (d1 := - w 0%Z - 1 / 2).
  exists (fun i j => if (i =? j)%Z then 1 else if (j <? i)%Z then (if (j =? 1)%Z then 1 / 2 / d1 else if (i =? 1)%Z then 1 / 2 else - (1 / 2)) else 0),
    (fun j => if (j =? 0)%Z then 2 else if (j =? 1)%Z then d1 else - w 1%Z - 1 / 2 - 1 / 4 / d1).
  assert (D1 : d1 < - (1 / 2)) by (unfold d1; lra).
  split; [|split; [|split]].
  - intros i Hi. rewrite Z.eqb_refl. reflexivity.
  - intros i j Hi Hj. destruct (Z.eqb_spec i j); [lia|]. destruct (Z.ltb_spec j i); [lia|]. reflexivity.
  - intros i j Hi Hj. rewrite !Ho, matrix3 by auto. rewrite Sum3. enum i; enum j; cbn [Z.eqb Z.ltb Z.compare Pos.eqb Pos.compare Pos.compare_cont]; unfold d1 in *; field; lra.
  - assert (- (1 / 4 / d1) < 1 / 2). { assert (1 / 4 / d1 * d1 = 1 / 4) by (field; lra). nra. }
    intros j Hj. enum j; cbn [Z.eqb Pos.eqb]; [rewrite Rabs_pos_eq; lra|rewrite Rabs_left; lra|rewrite Rabs_left; lra].
Qed.

(** Setup starts at x = -3/4, s = (7/4, 1/4), z = (1, 5/2). *)
Definition at_start (v : vars) : Prop :=
  vx v 0%Z = -3 / 4 /\ vs v 0%Z = 7 / 4 /\ vs v 1%Z = 1 / 4 /\ vz v 0%Z = 1 /\ vz v 1%Z = 5 / 2.

Lemma interval_start v e : (forall a, (0 <= a < 3)%Z -> e a = 0) -> start_point Qi e v -> at_start v.
Proof.
  intros He [[t [H1 [_ H3]]] [a [[La [i [Hi Ea]]] Hs]] [b [[Lb [j [Hj Eb]]] Hz]]].
  qi. specialize (H1 0%Z ltac:(lia)). pose proof (H3 0%Z ltac:(lia)) as H30. pose proof (H3 1%Z ltac:(lia)) as H31. clear H3. change (1 + 0 + 0)%Z with 1%Z in *. change (1 + 0 + 1)%Z with 2%Z in *.
  rewrite !He in * by lia. pose proof (La 0%Z ltac:(lia)). pose proof (La 1%Z ltac:(lia)). pose proof (Lb 0%Z ltac:(lia)). pose proof (Lb 1%Z ltac:(lia)).
  pose proof (Hs 0%Z ltac:(lia)) as S0. pose proof (Hs 1%Z ltac:(lia)) as S1. pose proof (Hz 0%Z ltac:(lia)) as Z0. pose proof (Hz 1%Z ltac:(lia)) as Z1. clear Hs Hz La Lb.
  unfold slack in *. qi. assert (X : vx v 0%Z = - 3 / 4) by lra. rewrite X in *.
  assert (A : a = 1 / 4) by (enum i; qi; lra). assert (B : b = 7 / 4) by (enum j; qi; lra). clear Ea Eb. subst a b.
  destruct (Rlt_dec 0 (1 / 4)); [|lra]. destruct (Rlt_dec (7 / 4) 0); [lra|]. unfold at_start. repeat split; lra.
Qed.

Lemma interval_direction v rc d : at_start v -> direction Qi (fun _ => 0) v rc d ->
  vx d 0%Z = (4 * rc 1%Z - 4 / 7 * rc 0%Z) * (7 / 88) /\ vs d 0%Z = - vx d 0%Z /\ vs d 1%Z = vx d 0%Z /\
  vz d 0%Z = 4 / 7 * (rc 0%Z + vx d 0%Z) /\ vz d 1%Z = 4 * rc 1%Z - 10 * vx d 0%Z.
Proof.
  intros [X [S0 [S1 [Z0 Z1]]]] [D1 _ D3 D4]. qi. specialize (D1 0%Z ltac:(lia)). pose proof (D3 0%Z ltac:(lia)) as D30. pose proof (D3 1%Z ltac:(lia)) as D31. clear D3.
  pose proof (D4 0%Z ltac:(lia)) as D40. pose proof (D4 1%Z ltac:(lia)) as D41. clear D4. unfold res_dual, res_in in *. qi. rewrite X, S0, S1, Z0, Z1 in *. lra.
Qed.

Lemma length_at v d i a : (0 <= i < 2)%Z -> a < 10000000000 -> v i + a * d i = 0 -> d i < 0 -> (forall k, (0 <= k < 2)%Z -> 0 <= v k + a * d k) -> step_length v d 2 a.
Proof. intros Hi Ha E Hd H. left. split; [|exact Ha]. split; [exact H|]. intros b Hb. exists i. split; [exact Hi|]. nra. Qed.

Lemma interval_meets v : at_start v -> meets_boundary Qi 0 100 v.
Proof.
  intros HA. pose proof HA as [X [S0 [S1 [Z0 Z1]]]]. split.
  - intros _ d Hd. destruct (interval_direction v _ d HA Hd) as [E1 [E2 [E3 [E4 E5]]]]. cbv beta in *. rewrite S0, S1, Z0, Z1 in *. split; [exists 1%Z|exists 0%Z]; (split; [qi; lia|]); rewrite ?S1, ?Z0; lra.
  - intros d sg' [dp0 a b H1 H2 H3 H4 H5 H6|H1 H2 H3]; [|lra].
    destruct (interval_direction v _ dp0 HA H2) as [E1 [E2 [E3 [E4 E5]]]]. cbv beta in *. rewrite S0, S1, Z0, Z1 in *.
    assert (F1 : vx dp0 0%Z = - (21 / 176)) by lra. rewrite F1 in *.
    assert (La : step_length (vs v) (vs dp0) 2 (44 / 21)).
    { apply (length_at _ _ 1); [lia|lra|rewrite S1, E3; lra|rewrite E3; lra|]. intros k Hk. enum k; [rewrite S0, E2|rewrite S1, E3]; lra. }
    assert (Lb : step_length (vz v) (vz dp0) 2 (44 / 47)).
    { apply (length_at _ _ 0); [lia|lra|rewrite Z0, E4; lra|rewrite E4; lra|]. intros k Hk. enum k; [rewrite Z0, E4|rewrite Z1, E5]; lra. }
    pose proof (step_length_unique _ _ _ _ _ La H3) as Ea. pose proof (step_length_unique _ _ _ _ _ Lb H4) as Eb. subst a b.
    assert (Es : sg' = 0).
    { rewrite H5. unfold reduction. qi. rewrite S0, S1, Z0, Z1, E2, E3, E4, E5. match goal with |- Rmax 0 (Rmin 1 ?r ^ 3) = 0 => replace r with 0 by field end.
      rewrite Rmin_right by lra. rewrite Rmax_left; lra. }
    rewrite Es in H6. destruct (interval_direction v _ d HA H6) as [G1 [G2 [G3 [G4 G5]]]]. cbv beta in *. rewrite S0, S1, Z0, Z1, E2, E3, E4, E5 in *.
    split; [exists 1%Z|exists 0%Z]; (split; [qi; lia|]); rewrite ?S1, ?Z0; lra.
Qed.

(** The hypotheses of the theorems above are met with j = 1. *)
Theorem C72_case amd : exists q c q' k V sg ap ad, valid_user amd interval /\ covered interval /\ symmetric Qi /\
  solved amd interval [] q c q' k V sg ap ad /\ regular_order (u_N interval) (kkt_matrix Qi (fun _ => 1)) (order_in q) /\ (1 <= k)%nat /\
  regular_at Qi (order_in q) (V O) /\ meets_boundary Qi (u_sigma_d interval) (sg O) (V O).
Proof.
  pose proof (interval_valid amd) as HV. pose proof interval_covered as HC. pose proof Qi_sym as HS.
  assert (HQ : quiet_calls RA interval ([] ++ [Solve RA])) by (right; intros o [E|[]]; discriminate E).
  destruct (exact_trace amd interval _ HV HC HS HQ) as [q [c [q' [k [V [sg [ap [ad HT]]]]]]]]. pose proof HT as [codes [E1 [E2 M]]].
  destruct (C47_start_point amd interval HV HC HS) as [q0 [E0 [HO [Eo [_ [e [[_ He] Hst]]]]]]]. rewrite E1 in E0. injection E0 as -> <-. cbn [car RA] in *.
  assert (Ho : forall i, (0 <= i < 3)%Z -> order_in q i = i) by (intros i Hi; rewrite (order_given amd interval _ q HV eq_refl E1); enum i; reflexivity).
  assert (HR : regular_order 3 (kkt_matrix Qi (fun _ => 1)) (order_in q)) by (apply interval_regular; auto; lra).
  specialize (He HR). pose proof (interval_start _ e He Hst) as HA0.
  assert (HA : at_start (V O)).
  { destruct (sm_from _ _ _ _ _ _ _ _ _ M) as [X0 _ Z0 S0]. qi. unfold at_start. rewrite X0, !S0, !Z0 by lia. exact HA0. }
  exists q, c, q', k, V, sg, ap, ad. split; [exact HV|]. split; [exact HC|]. split; [exact HS|]. split; [exact HT|]. split; [exact HR|]. split.
  - destruct k; [exfalso|lia]. assert (Em : maxit (q_options q) = 100%Z) by (apply (f_equal maxit) in Eo; exact Eo).
    destruct (sm_stop _ _ _ _ _ _ _ _ _ M ltac:(lia)) as [_ [_ [_ Hg]]]. assert (Ea : abstol (q_options q) = 1 / 1000000) by (apply (f_equal abstol) in Eo; exact Eo). rewrite Ea in Hg.
    destruct (sm_to _ _ _ _ _ _ _ _ _ M) as [_ _ Z0 S0]. destruct HA as [_ [S1 [S2 [Z1 Z2]]]]. unfold gap in Hg. qi. cbn [vars_of vz vs] in *. rewrite <- !S0, <- !Z0, S1, S2, Z1, Z2 in Hg by lia. lra.
  - pose proof HA as [_ [S1 [S2 [Z1 Z2]]]]. split; [apply interval_regular; rewrite ?S1, ?S2, ?Z1, ?Z2; auto; lra|].
    rewrite (sm_sg _ _ _ _ _ _ _ _ _ M). apply (f_equal sigma) in Eo. replace (sigma (q_options q)) with 100 by (symmetry; exact Eo). apply interval_meets. exact HA.
Qed.

(** ** The stopping tests differ *)
Definition offset : QPdata := mkQPd 1 1 0 (fun _ _ => 1) (fun _ _ => 0) (fun _ _ => 1) (fun _ => 9 / 10000000 - 1 / 10000) (fun _ => 0) (fun _ => 1 / 10000).
Definition near : vars := mkVars (fun _ => 0) (fun _ => 0) (fun _ => 1 / 10000) (fun _ => 1 / 10000).
Theorem C72_stop_refuted : exists Q v, interior_vars Q v /\ m_stops Q v /\ ~ passes_at Q (1 / 1000000) (1 / 1000000) v.
Proof.
  exists offset, near. split; [intros i Hi; cbn; lra|]. split.
  - unfold m_stops, m_rx, m_ry, m_rz. cbn [offset near dn dm dp dP dA dG dc db dh vx vy vz vs]. rewrite ?Sum0, ?Sum1, ?Sum0. split; [|lra].
    match goal with |- sqrt ?r < _ => replace r with (9 / 10000000 * (9 / 10000000)) by field end. rewrite sqrt_square; lra.
  - intros [H _]. unfold Euclid, res_dual in H. cbn [offset near dn dm dp dP dA dG dc db dh vx vy vz vs] in H. rewrite ?Sum0, ?Sum1, ?Sum0 in H.
    match type of H with sqrt ?r < _ => replace r with (9 / 10000000 * (9 / 10000000)) in H by field end. rewrite sqrt_square in H by lra.
    assert (S3 : 3 / 2 < sqrt 3). { rewrite <- (sqrt_square (3 / 2)) by lra. apply sqrt_lt_1_alt. lra. }
    assert (E : 1 / 1000000 / sqrt 3 * sqrt 3 = 1 / 1000000) by (field; lra). nra.
Qed.

(** ** The steps differ when the boundary is not met: minimise x^2/2 + x subject to x <= 1 *)
Definition unblocked : QPdata := mkQPd 1 1 0 (fun _ _ => 1) (fun _ _ => 0) (fun _ _ => 1) (fun _ => 1) (fun _ => 0) (fun _ => 1).
Definition begin_ : vars := mkVars (fun _ => 0) (fun _ => 0) (fun _ => 1) (fun _ => 1).
Definition pred_ : vars := mkVars (fun _ => - (1 / 2)) (fun _ => 0) (fun _ => - (3 / 2)) (fun _ => 1 / 2).
Definition corr_ : vars := mkVars (fun _ => - (7 / 8)) (fun _ => 0) (fun _ => - (9 / 8)) (fun _ => 7 / 8).
Definition move_ (ap ad : R) : vars := mkVars (fun i => vx begin_ i + ap * vx corr_ i) (fun i => vy begin_ i + ad * vy corr_ i) (fun i => vz begin_ i + ad * vz corr_ i) (fun i => vs begin_ i + ap * vs corr_ i).

Theorem C72_step_refuted : exists Q v v1 v2, m_init Q v /\ interior_vars Q v /\ regular_at Q (fun i => i) v /\
  method_step Q (fun _ => 0) 0 100 v v1 (99 / 100) (88 / 100) 0 /\ m_pass Q v 0 100 v2 1 (88 / 100) 0 /\ vx v1 0%Z <> vx v2 0%Z.
Proof.
  assert (ST : step_length (vs begin_) (vs pred_) 1 1) by (right; split; [intros; cbn; lra|reflexivity]).
  assert (SC : step_length (vs begin_) (vs corr_) 1 1) by (right; split; [intros; cbn; lra|reflexivity]).
  assert (ZT : step_length (vz begin_) (vz pred_) 1 (2 / 3)).
  { left. split; [|lra]. split; [intros; cbn; lra|]. intros b Hb. exists 0%Z. split; [lia|]. cbn. lra. }
  assert (ZC : step_length (vz begin_) (vz corr_) 1 (8 / 9)).
  { left. split; [|lra]. split; [intros; cbn; lra|]. intros b Hb. exists 0%Z. split; [lia|]. cbn. lra. }
  assert (GP : gap unblocked (vs begin_) (vz begin_) = 1) by (unfold gap; cbn [unblocked begin_ dm vs vz]; rewrite Sum1; field).
  assert (DP : direction unblocked (fun _ => 0) begin_ (fun i => - (vs begin_ i * vz begin_ i)) pred_).
  { split; cbn [unblocked begin_ pred_ dn dm dp dP dA dG dc db dh vx vy vz vs]; unfold res_dual, res_in; cbn [unblocked begin_ pred_ dn dm dp dP dA dG dc db dh vx vy vz vs]; intros i Hi; try lia; rewrite ?Sum0, ?Sum1, ?Sum0; lra. }
  assert (DC : direction unblocked (fun _ => 0) begin_ (fun i => - (vs begin_ i * vz begin_ i) - vs pred_ i * vz pred_ i + 0 * gap unblocked (vs begin_) (vz begin_)) corr_).
  { rewrite GP. split; cbn [unblocked begin_ corr_ pred_ dn dm dp dP dA dG dc db dh vx vy vz vs]; unfold res_dual, res_in; cbn [unblocked begin_ corr_ dn dm dp dP dA dG dc db dh vx vy vz vs]; intros i Hi; try lia; rewrite ?Sum0, ?Sum1, ?Sum0; lra. }
  assert (HI : interior_vars unblocked begin_) by (intros i Hi; cbn; lra).
  assert (HO : order_of (dn unblocked + dp unblocked + dm unblocked) (fun i => i)) by (split; auto).
  assert (HR0 : forall w, w 0%Z = 1 -> regular_order 2 (kkt_matrix unblocked w) (fun i => i)).
  { intros w Hw. exists (fun i j => if (i =? j)%Z then 1 else if (j <? i)%Z then 1 else 0), (fun j => if (j =? 0)%Z then 1 else -2). split; [|split; [|split]].
    - intros i Hi. rewrite Z.eqb_refl. reflexivity.
    - intros i j Hi Hj. destruct (Z.eqb_spec i j); [lia|]. destruct (Z.ltb_spec j i); [lia|]. reflexivity.
    - intros i j Hi Hj. rewrite Sum2. enum i; enum j; cbv - [Rdiv Ropp Rplus Rminus Rmult IZR]; rewrite ?Hw; field.
    - intros j Hj. enum j; cbn [Z.eqb]; [rewrite Rabs_pos_eq; lra|rewrite Rabs_left; lra]. }
  assert (HR : regular_at unblocked (fun i => i) begin_) by (apply HR0; cbn; field).
  assert (HN : m_init unblocked begin_).
  { apply (C72_start unblocked ltac:(cbn; lia) ltac:(cbn; lia) ltac:(cbn; lia) (fun i => i) (fun _ => 0) begin_ HO); [apply HR0; reflexivity|intros i Hi; reflexivity|].
    assert (SL : slack unblocked (vx begin_) 0%Z = 1) by (unfold slack; cbn [unblocked begin_ dn dG dh vx]; rewrite Sum1; lra). split.
    - exists (fun _ => -1). cbn [unblocked begin_ dn dm dp dP dA dG dc db dh vx vy vz vs]. split; [|split]; intros i Hi; try lia; rewrite ?Sum0, ?Sum1, ?Sum0; lra.
    - exists 1. cbn [unblocked dm]. split; [split; [|exists 0%Z; split; [lia|exact SL]]|]; intros i Hi; assert (i = 0)%Z by lia; subst i; rewrite SL; [lra|]. destruct (Rlt_dec 0 1); cbn; lra.
    - exists 1. cbn [unblocked dm]. split; [split; [|exists 0%Z; split; [lia|exact SL]]|]; intros i Hi; assert (i = 0)%Z by lia; subst i; rewrite SL; [lra|]. destruct (Rlt_dec 1 0); cbn; lra. }
  exists unblocked, begin_, (move_ (99 / 100) (88 / 100)), (move_ 1 (88 / 100)). split; [exact HN|]. split; [exact HI|]. split; [exact HR|].
  assert (RD : reduction unblocked begin_ pred_ 1 (2 / 3) = 0) by (unfold reduction; cbn [unblocked begin_ pred_ dm vs vz]; rewrite !Sum1; field).
  assert (S0 : 0 = Rmax 0 (Rmin 1 0 ^ 3)) by (rewrite Rmin_right by lra; rewrite Rmax_left; lra).
  split; [|split; [|cbn; lra]].
  - exists corr_. split; [|split; [exists 1; split; [exact SC|rewrite Rmin_left; lra]|split; [exists (8 / 9); split; [exact ZC|rewrite Rmin_left; lra]|split; reflexivity]]].
    apply (predictor_corrector unblocked _ 0 100 begin_ corr_ 0 pred_ 1 (2 / 3)); auto; [lra|]. rewrite RD. exact S0.
  - assert (ND : no_change unblocked (fun _ => 0)) by (intros i Hi; reflexivity).
    assert (F1 : forall d d', (forall i, (0 <= i < 1)%Z -> d' i = vs d i) -> 0 < vs d 0%Z -> m_findsteplength (vs begin_) d' 1 = 1000).
    { intros d d' Hd Hp. unfold m_findsteplength, m_max. change (Z.to_nat (1 - 1)) with O. cbn [m_maxn]. unfold m_test. rewrite Hd by lia.
      destruct (Req_EM_T (vs d 0%Z) 0); [lra|]. destruct (Rlt_dec 0 (vs begin_ 0%Z / vs d 0%Z)) as [|H]; [lra|]. exfalso. apply H. apply Rdiv_lt_0_compat; [cbn; lra|exact Hp]. }
    assert (F2 : forall d d' a, (forall i, (0 <= i < 1)%Z -> d' i = vz d i) -> vz d 0%Z = - a -> 0 < a -> m_findsteplength (vz begin_) d' 1 = / a).
    { intros d d' a Hd Hp Ha. unfold m_findsteplength, m_max. change (Z.to_nat (1 - 1)) with O. cbn [m_maxn]. unfold m_test. rewrite Hd, Hp by lia.
      destruct (Req_EM_T (- a) 0); [lra|]. cbn [begin_ vz]. assert (E : 1 / - a = - / a) by (field; lra). rewrite E. pose proof (Rinv_0_lt_compat a Ha). destruct (Rlt_dec 0 (- / a)); lra. }
    destruct (direction_Delta unblocked ltac:(cbn; lia) ltac:(cbn; lia) ltac:(cbn; lia) begin_ HI (fun i => i) (fun _ => 0) _ (fun i => - m_lambda begin_ i * m_lambda begin_ i) pred_ HO HR ND DP) as [HDp [_ [_ [Pz Ps]]]].
    { intros i Hi. rewrite <- (lambda_sq unblocked begin_ HI i Hi). ring. }
    match type of DC with direction _ _ _ ?r _ => set (rc := r) in * end.
    destruct (direction_Delta unblocked ltac:(cbn; lia) ltac:(cbn; lia) ltac:(cbn; lia) begin_ HI (fun i => i) (fun _ => 0) rc rc corr_ HO HR ND DC ltac:(reflexivity)) as [HDc [Cx [Cy [Cz Cs]]]].
    eexists rc, _. split; [|split; [exact HDc|]].
    + eapply m_predictor; [lra|exact HDp| |].
      * cbv zeta. change (dm unblocked) with 1%Z in *. rewrite (F1 pred_ _ Ps) by (cbn; lra). rewrite (F2 pred_ _ (3 / 2) Pz) by (cbn; lra). rewrite !Sum1. rewrite Ps, Pz by lia. cbn [begin_ pred_ vs vz].
        match goal with |- 0 = Rmax 0 (Rmin 1 ?r ^ 3) => replace r with 0 by field end. exact S0.
      * intros i Hi. unfold rc. cbv beta. rewrite (scaled_product unblocked begin_ HI) by exact Hi. rewrite Ps, Pz, (mu_eq unblocked begin_ HI), <- (lambda_sq unblocked begin_ HI i Hi) by exact Hi. ring.
    + cbv zeta. change (dm unblocked) with 1%Z in *. rewrite (F1 corr_ _ Cs) by (cbn; lra). rewrite (F2 corr_ _ (9 / 8) Cz) by (cbn; lra). repeat split.
      * rewrite Rmin_right; lra.
      * rewrite Rmin_left; lra.
      * intros i Hi. rewrite Cx by exact Hi. reflexivity.
      * intros i Hi. rewrite Cy by exact Hi. reflexivity.
      * intros i Hi. rewrite Cs by exact Hi. reflexivity.
      * intros i Hi. rewrite Cz by exact Hi. reflexivity.
Qed.

Print Assumptions C72_start.
Print Assumptions C72_step.
Print Assumptions C72_stop.
Print Assumptions C72_exists.
Print Assumptions C72_agree.
Print Assumptions C72_run.
Print Assumptions C72_case.
Print Assumptions C72_stop_refuted.
Print Assumptions C72_step_refuted.
