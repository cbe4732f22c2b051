(** C82: exit code 0 in binary64 for the dense entry point and for the Python extension, in terms of the matrices the
    caller wrote down and of the lists that come back. *)
From Coq Require Import ZArith Reals List Lia Lra Bool.
From RecordUpdate Require Import RecordUpdate.
From Flocq Require Import Core BinarySingleNaN.
From Verif Require Import Res Partial Arith Lists MSparse Csc SemVec Flat MSolver MIface TransposeProofs KktProofs LdlNum DenseProofs VecOps Iter SafeInst Setup Session Spec SpecLink QpSpec
  StepSpec StepUniq Api Demo P2_Kkt P4_Always P5_Session P6_Codes StepFacts PointR NewtonR QpFacts P8_Problem P9_Entry P11_Iface Round P14_Round P22_RoundCodes.
Import ListNotations.
Open Scope Z_scope.
Open Scope res_scope.

(** ** Specification *)

(** The problem a dense call describes, every double [v] read as the real [f v]. *)
Definition dense_data (f : b64 -> R) (w : dense_user b64) (dP dA dG : Z -> Z -> b64) : QPdata :=
  mkQPd (d_n w) (d_m w) (match d_eqs w with Some _ => d_p w | None => 0 end)
    (fun i j => f (dP i j)) (fun i j => f (dA i j)) (fun i j => f (dG i j))
    (fun i => f (get (f0 FA) (d_c w) i)) (fun i => match d_eqs w with Some (_, bb) => f (get (f0 FA) bb i) | None => 0%R end)
    (fun i => f (get (f0 FA) (d_h w) i)).

(** A bound on the number of operations in each sum, from the dimensions only, and the relative error of so many roundings. *)
Definition dense_operations {F} (w : dense_user F) : Z :=
  let p := match d_eqs w with Some _ => d_p w | None => 0 end in
  d_n w * d_n w + d_m w * d_n w + p * d_n w + d_n w + d_m w + p + 4.
Definition slack_of (k : Z) : R := (IZR k * bpow radix2 (-52))%R.
Definition met_of (g r : R) : R := ((r / sqrt 3 + bpow radix2 (-508)) / ((1 - g) * (1 - g) * (1 - g)))%R.

(** How far [x] is from feasible and from optimal: [t] and [g] are the tolerance and the relative error of the residuals. *)
Definition near_optimal (Q W : QPdata) (t g a : R) (x y z s : Z -> R) : Prop :=
  let e_dual := (t + g * Euclid (w_dual W x y z) (dn Q))%R in
  let e_in := (t + g * Euclid (w_in W x s) (dm Q))%R in
  let e_eq := (if dp Q =? 0 then 0 else t + g * Euclid (w_eq W x) (dp Q))%R in
  (forall i, 0 <= i < dm Q -> (Sum (dn Q) (fun j => dG Q i j * x j) <= dh Q i + e_in)%R) /\
  (forall i, 0 <= i < dp Q -> (Rabs (db Q i - Sum (dn Q) (fun j => dA Q i j * x j)) <= e_eq)%R) /\
  (symmetric Q -> psd_on Q -> forall x', feasible Q x' ->
   (objective Q x - objective Q x' <= e_dual * Euclid (fun i => x' i - x i) (dn Q) + e_eq * Euclid y (dp Q) + e_in * Euclid z (dm Q)
     + IZR (dm Q) * a + g * Sum (dm Q) (fun i => s i * z i))%R).

(** ** The same residuals for the same numbers *)
Section Same.
Variables (Q Q' W W' : QPdata) (t t' g g' a : R) (x y z s x1 y1 z1 s1 : Z -> R).
Hypothesis HQ : same_qp Q Q'.
Hypothesis HW : same_qp W W'.
Hypothesis Dn : dn W = dn Q.
Hypothesis Dm : dm W = dm Q.
Hypothesis Dp : dp W = dp Q.
Hypothesis Ht : (0 <= t <= t')%R.
Hypothesis Hg : (0 <= g <= g')%R.
Hypothesis Ex : eq_on (dn Q) x x1.
Hypothesis Ey : eq_on (dp Q) y y1.
Hypothesis Ez : eq_on (dm Q) z z1.
Hypothesis Es : eq_on (dm Q) s s1.

Lemma weights_same :
  Euclid (w_dual W x y z) (dn Q) = Euclid (w_dual W' x1 y1 z1) (dn Q') /\
  Euclid (w_in W x s) (dm Q) = Euclid (w_in W' x1 s1) (dm Q') /\ Euclid (w_eq W x) (dp Q) = Euclid (w_eq W' x1) (dp Q').
Proof.
  rewrite <- (sq_n _ _ HQ), <- (sq_m _ _ HQ), <- (sq_p _ _ HQ).
  split; [|split]; apply Euclid_ext; intros i Hi.
  - rewrite (w_dual_ext W x x1 y y1 z z1) by (rewrite ?Dn, ?Dm, ?Dp; auto). unfold w_dual.
    rewrite (same_sum_P _ _ HW i (fun k => Rabs (x1 k))), (same_sum_Gt _ _ HW i (fun k => Rabs (z1 k))), (same_sum_At _ _ HW i (fun k => Rabs (y1 k))), (sq_c _ _ HW) by (rewrite Dn; auto).
    reflexivity.
  - rewrite (w_in_ext W x x1 s s1) by (rewrite ?Dn, ?Dm; auto). unfold w_in.
    rewrite (same_sum_G _ _ HW i (fun k => Rabs (x1 k))), (sq_h _ _ HW) by (rewrite Dm; auto). reflexivity.
  - rewrite (w_eq_ext W x x1) by (rewrite Dn; auto). unfold w_eq.
    rewrite (same_sum_A _ _ HW i (fun k => Rabs (x1 k))), (sq_b _ _ HW) by (rewrite Dp; auto). reflexivity.
Qed.

Lemma bound_grows e : (0 <= e -> t + g * e <= t' + g' * e)%R.
Proof. intros He. assert (g * e <= g' * e)%R by (apply Rmult_le_compat_r; lra). lra. Qed.

Lemma near_kkt_same : near_kkt Q W t g x y z s -> near_kkt Q' W' t' g' x1 y1 z1 s1.
Proof.
  intros [K1 K2 K3]. destruct weights_same as [W1 [W2 W3]]. destruct (same_norms Q Q' HQ x1 y1 z1 s1) as [N1 [N2 N3]].
  rewrite W1 in K1. rewrite W2 in K2. rewrite W3 in K3.
  split.
  - rewrite <- N1, (Euclid_ext (res_dual Q x1 y1 z1) (res_dual Q x y z)).
    + eapply Rle_trans; [exact K1|]. apply bound_grows, Euclid_nonneg.
    + intros i Hi. symmetry. apply res_dual_ext; auto.
  - rewrite <- N3, (Euclid_ext (res_in Q x1 s1) (res_in Q x s)).
    + eapply Rle_trans; [exact K2|]. apply bound_grows, Euclid_nonneg.
    + intros i Hi. symmetry. apply res_in_ext; auto.
  - intros Hp. rewrite <- (sq_p _ _ HQ) in Hp. rewrite <- N2, (Euclid_ext (res_eq Q x1) (res_eq Q x)).
    + eapply Rle_trans; [exact (K3 Hp)|]. apply bound_grows, Euclid_nonneg.
    + intros i Hi. symmetry. apply res_eq_ext; auto.
Qed.

Lemma near_optimal_same : (0 <= Sum (dm Q) (fun i => s i * z i))%R -> near_optimal Q W t g a x y z s -> near_optimal Q' W' t' g' a x1 y1 z1 s1.
Proof.
  intros Hsz. unfold near_optimal. destruct weights_same as [-> [-> ->]]. rewrite <- (sq_n _ _ HQ), <- (sq_m _ _ HQ), <- (sq_p _ _ HQ).
  pose proof (bound_grows _ (Euclid_nonneg (w_dual W' x1 y1 z1) (dn Q))) as B1.
  pose proof (bound_grows _ (Euclid_nonneg (w_in W' x1 s1) (dm Q))) as B2.
  pose proof (bound_grows _ (Euclid_nonneg (w_eq W' x1) (dp Q))) as B3.
  set (eD := (t + g * Euclid (w_dual W' x1 y1 z1) (dn Q))%R) in *. set (eD' := (t' + g' * Euclid (w_dual W' x1 y1 z1) (dn Q))%R) in *.
  set (eI := (t + g * Euclid (w_in W' x1 s1) (dm Q))%R) in *. set (eI' := (t' + g' * Euclid (w_in W' x1 s1) (dm Q))%R) in *.
  set (eE := (if dp Q =? 0 then 0 else t + g * Euclid (w_eq W' x1) (dp Q))%R).
  set (eE' := (if dp Q =? 0 then 0 else t' + g' * Euclid (w_eq W' x1) (dp Q))%R).
  assert (B3' : (eE <= eE')%R) by (unfold eE, eE'; destruct (_ =? _); lra). clear B3. clearbody eD eD' eI eI' eE eE'.
  intros [H1 [H2 H3]]. split; [|split].
  - intros i Hi. rewrite <- (sq_h _ _ HQ) by auto. pose proof (H1 i Hi) as H.
    rewrite (Sum_ext (dn Q) _ (fun j => dG Q' i j * x1 j)%R) in H; [lra|]. intros j Hj. rewrite (sq_G _ _ HQ), Ex by auto. reflexivity.
  - intros i Hi. rewrite <- (sq_b _ _ HQ) by auto. pose proof (H2 i Hi) as H.
    rewrite (Sum_ext (dn Q) _ (fun j => dA Q' i j * x1 j)%R) in H; [lra|]. intros j Hj. rewrite (sq_A _ _ HQ), Ex by auto. reflexivity.
  - intros HS HP x' HF.
    assert (HS0 : symmetric Q) by (intros i j Hi Hj; rewrite !(sq_P _ _ HQ) by auto; apply HS; rewrite <- (sq_n _ _ HQ); auto).
    assert (HP0 : psd_on Q).
    { intros v. specialize (HP v). rewrite <- (sq_n _ _ HQ) in HP. rewrite (Sum_ext (dn Q) _ (fun i => v i * Sum (dn Q) (fun j => dP Q' i j * v j)))%R; auto.
      intros i Hi. f_equal. apply Sum_ext. intros j Hj. rewrite (sq_P _ _ HQ) by auto. reflexivity. }
    assert (HF0 : feasible Q x').
    { destruct HF as [F1 F2]. split; intros i Hi; [rewrite (same_eq _ _ HQ) by auto; apply F1; rewrite <- (sq_p _ _ HQ); auto|].
      rewrite (same_sum_G _ _ HQ), (sq_h _ _ HQ) by auto. apply F2. rewrite <- (sq_m _ _ HQ). auto. }
    specialize (H3 HS0 HP0 x' HF0).
    rewrite <- !(same_objective _ _ HQ), <- (objective_ext Q x x1 Ex).
    rewrite (Euclid_ext (fun i => x' i - x1 i)%R (fun i => x' i - x i)%R) by (intros i Hi; rewrite Ex by auto; reflexivity).
    rewrite (Euclid_ext y1 y), (Euclid_ext z1 z) by (intros i Hi; symmetry; auto).
    rewrite (Sum_ext (dm Q) (fun i => s1 i * z1 i)%R (fun i => s i * z i)%R) by (intros i Hi; rewrite Es, Ez by auto; reflexivity).
    eapply Rle_trans; [exact H3|].
    pose proof (Rmult_le_compat_r _ _ _ (Euclid_nonneg (fun i => x' i - x i)%R (dn Q)) B1).
    pose proof (Rmult_le_compat_r _ _ _ (Euclid_nonneg y (dp Q)) B3'). pose proof (Rmult_le_compat_r _ _ _ (Euclid_nonneg z (dm Q)) B2).
    pose proof (Rmult_le_compat_r _ _ _ Hsz (proj2 Hg)). lra.
Qed.
End Same.

(** ** The data of a dense call *)
Lemma dense_col_map (f : b64 -> R) m d i j : (forall v, feqb FA v (f0 FA) = true -> f v = 0%R) -> 0 <= i < m ->
  ent (map (fun e => (fst e, f (snd e))) (dense_col FA m d j)) i = f (d i j).
Proof.
  intros Hf Hi. unfold ent, dense_col. rewrite sumr_map, sumr_filter, sumr_map. cbn [fst snd].
  rewrite (sumr_ext _ (fun x => if x =? i then f (d x j) else 0%R)).
  - apply (sumr_delta i (fun x => f (d x j))); [apply NoDup_zr|apply in_zr; auto].
  - intros x _. unfold fneq0. destruct (x =? i); [|destruct (negb _); auto].
    destruct (feqb FA (d x j) (f0 FA)) eqn:E; cbn [negb]; auto. rewrite (Hf _ E). reflexivity.
Qed.

Lemma dense_equalities (A : Arith) w u dP dA dG : sparse_form A w u dP dA dG ->
  match d_eqs w with
  | Some (a, bb) => 0 <= d_p w /\ d_p w <> 0 /\ exists ajc air apr, u_eqs u = Some (ajc, air, apr, bb) /\ compressed A (d_p w) (d_n w) dA ajc air apr
  | None => u_eqs u = None end.
Proof.
  intros [E1 E2 E3 E4 E5 E6 E7 E8 _ _ HA]. unfold u_eqs. rewrite E3, E6. unfold d_eqs in *.
  destruct (d_A w) as [a|]; [|rewrite HA; destruct (u_Apr u); reflexivity].
  destruct (d_b w) as [bb|]; [|rewrite HA; destruct (u_Apr u); reflexivity].
  destruct (Z.eqb_spec (d_p w) 0) as [Ep|Ep]; [rewrite HA; destruct (u_Apr u); reflexivity|].
  destruct HA as [Hp [LA [ajc [air [apr [-> [-> [-> CA]]]]]]]]. split; auto. split; auto. eauto 10.
Qed.

Lemma dense_same (f : b64 -> R) w u dP dA dG : (forall v, feqb FA v (f0 FA) = true -> f v = 0%R) -> f (f0 FA) = 0%R ->
  0 <= d_n w -> 0 <= d_m w -> sparse_form FA w u dP dA dG ->
  same_qp (user_qp (@user_map b64 R f u)) (dense_data f w dP dA dG).
Proof.
  intros Hf F0 Hn Hm SF. pose proof (dense_equalities FA w u dP dA dG SF) as EQ. destruct SF as [E1 E2 E3 E4 E5 E6 E7 E8 [LP CP] [LG CG] _].
  assert (ENT : forall m n d Jc Ir Pr i j, compressed FA m n d Jc Ir Pr -> 0 <= m -> 0 <= n -> 0 <= i < m -> 0 <= j < n ->
    mat_entry Jc Ir (@map_arr b64 R f Pr) i j = f (d i j)).
  { intros m n d Jc Ir Pr i j HC Hm' Hn' Hi Hj. pose proof HC as [[nz [HC' _]] _ _].
    pose proof (cp_last _ _ _ _ _ (ca_pattern _ _ _ _ _ _ HC')) as E.
    pose proof (compressed_repr FA m n d Jc Ir Pr nz Hm' Hn' HC E) as R.
    pose proof (Csc_column (f0 FA) _ _ _ n (dense_col FA m d) j (rp_csc _ _ _ _ (rx_repr _ _ _ _ R)) Hj) as EC.
    unfold mat_entry. cbn [jc ir pr SparseMatrixSetup] in EC. rewrite <- F0, column_map. change (car FA) with b64 in *. rewrite EC, F0.
    apply (dense_col_map f m d i j Hf Hi). }
  assert (V : forall (v : arr b64) i, get 0%R (@map_arr b64 R f v) i = f (get (f0 FA) v i)) by (intros; rewrite <- F0 at 1; apply get_map).
  change (car FA) with b64 in *. unfold dense_data, user_qp, user_map. 
  assert (UE : forall (u0 : user b64), @u_eqs R (@user_map b64 R f u0) = match @u_eqs b64 u0 with Some (a, b, c, d) => Some (a, b, map_arr f c, map_arr f d) | None => None end).
  { intros u0. unfold u_eqs, user_map. cbn [u_Apr u_Ajc u_Air u_b u_p]. destruct (u_Apr u0), (u_Ajc u0), (u_Air u0), (u_b u0); cbn [option_map]; try reflexivity. destruct (u_p u0 =? 0); reflexivity. }
  specialize (UE u). unfold user_map in UE. rewrite UE. destruct (@d_eqs b64 w) as [[a bb]|].
  - destruct EQ as [Hp [_ [ajc [air [apr [-> CA]]]]]]. split; cbn; auto; rewrite ?E1, ?E2, ?E3, ?E4, ?E5; auto; intros; eapply ENT; eauto.
  - rewrite EQ. split; cbn; auto; rewrite ?E1, ?E2, ?E3, ?E4, ?E5; auto; intros; try lia; eapply ENT; eauto.
Qed.

(** ** C82 *)

(** Every number of the problem is finite. *)
Definition dense_finite (w : dense_user b64) (dP dA dG : Z -> Z -> b64) : Prop :=
  (forall i j, 0 <= i < d_n w -> 0 <= j < d_n w -> is_finite (dP i j) = true) /\
  (forall i j, 0 <= i < d_m w -> 0 <= j < d_n w -> is_finite (dG i j) = true) /\
  (forall i, 0 <= i < d_n w -> is_finite (get (f0 FA) (d_c w) i) = true) /\
  (forall i, 0 <= i < d_m w -> is_finite (get (f0 FA) (d_h w) i) = true) /\
  (forall a bb, d_eqs w = Some (a, bb) ->
    (forall i j, 0 <= i < d_p w -> 0 <= j < d_n w -> is_finite (dA i j) = true) /\ (forall i, 0 <= i < d_p w -> is_finite (get (f0 FA) bb i) = true)).

(** Printing is off, or there are equality constraints (property C27). *)
Definition quiet_dense (w : dense_user b64) (l : list (call FA)) : Prop :=
  d_eqs w <> None \/ forall o, In (SetOptions FA o) l -> verbose o <= 0.

Lemma feqb_zero (v : b64) : feqb FA v (f0 FA) = true -> B2R v = 0%R /\ is_finite v = true.
Proof. destruct v as [s|[]| |[] mx ex Hx]; intros H; try (discriminate H || (vm_compute in H; discriminate H)); split; reflexivity. Qed.

Lemma met_grows g g' r : (0 <= r)%R -> (0 <= g <= g')%R -> (g' <= 1 / 2)%R -> (0 <= met_of g r <= met_of g' r)%R.
Proof.
  intros Hr Hg Hg'. unfold met_of.
  assert (N : (0 <= r / sqrt 3 + bpow radix2 (-508))%R).
  { pose proof (bpow_ge_0 radix2 (-508)). assert (0 < sqrt 3)%R by (apply sqrt_lt_R0; lra). pose proof (Rinv_0_lt_compat _ H0). unfold Rdiv.
    pose proof (Rmult_le_pos _ _ Hr (Rlt_le _ _ H1)). lra. }
  assert (D' : (0 < (1 - g') * (1 - g') * (1 - g'))%R) by (repeat apply Rmult_lt_0_compat; lra).
  assert (D : ((1 - g') * (1 - g') * (1 - g') <= (1 - g) * (1 - g) * (1 - g))%R).
  { repeat apply Rmult_le_compat; try lra. apply Rmult_le_pos; lra. }
  set (d := ((1 - g) * (1 - g) * (1 - g))%R) in *. set (d' := ((1 - g') * (1 - g') * (1 - g'))%R) in *.
  split; [apply Rmult_le_pos; [exact N|]; apply Rlt_le, Rinv_0_lt_compat; lra|].
  apply Rmult_le_compat_l; [exact N|]. apply Rinv_le_contravar; auto.
Qed.

Lemma stored_finite m n d Jc Ir Pr : compressed FA m n d Jc Ir Pr ->
  (forall i j v, 0 <= j < n -> stored Jc Ir Pr i j v -> is_finite v = true) -> forall i j, 0 <= i < m -> 0 <= j < n -> is_finite (d i j) = true.
Proof.
  intros HC HF i j Hi Hj. destruct (feqb FA (d i j) (f0 FA)) eqn:E; [apply (feqb_zero _ E)|].
  apply (HF i j); auto. apply (cm_stored _ _ _ _ _ _ _ HC); auto.
Qed.

Section Code.
Variables (amd : amd_t) (w : dense_user b64) (dP dA dG : Z -> Z -> b64) (l : list (call FA)) (codes : list Z) (q0 q : qp b64).
Hypothesis V : valid_dense FA amd w dP dA dG.
Hypothesis Hq : quiet_dense w (l ++ [Solve FA]).
Hypothesis E0 : dense_session FA amd w l = Ok (codes, q0).
Hypothesis E1 : dense_session FA amd w (l ++ [Solve FA]) = Ok (codes ++ [0], q).
Hypothesis Hnew : last codes 3 <> 0.
Hypothesis HK : dense_operations w <= 2 ^ 51.
Hypothesis Fr : is_finite (reltol (q_options q0)) = true.
Hypothesis Fa : is_finite (abstol (q_options q0)) = true.
Notation Q := (dense_data B2R w dP dA dG).
Notation W := (dense_data (fun v => Rabs (B2R v)) w dP dA dG).
Notation g := (slack_of (dense_operations w)).
Notation t := (met_of g (B2R (reltol (q_options q0)))).
Notation a := (B2R (abstol (q_options q0)) + bpow radix2 (-510))%R.
Variables x y z s : Z -> R.
Hypothesis Hx : eq_on (dn Q) (vec_of (q_x q)) x.
Hypothesis Hy : eq_on (dp Q) (vec_of (q_y q)) y.
Hypothesis Hz : eq_on (dm Q) (vec_of (q_z q)) z.
Hypothesis Hs : eq_on (dm Q) (vec_of (q_s q)) s.

Lemma dense_says : dense_finite w dP dA dG /\ near_kkt Q W t g x y z s /\
  (nonneg_vec (q_s q) (d_m w) -> nonneg_vec (q_z q) (d_m w) -> near_optimal Q W t g a x y z s).
Proof.
  destruct (C34_dense_is_sparse FA amd w dP dA dG V) as [u [SF [VU ES]]].
  pose proof (dense_equalities FA w u dP dA dG SF) as EQ. pose proof (vd_n _ _ _ _ _ _ V) as Vn. pose proof (vd_m _ _ _ _ _ _ V) as Vm. change (car FA) with b64 in *.
  assert (Vm0 : 0 <= d_m w) by lia.
  assert (SQ : same_qp (exact_qp u) Q) by (apply dense_same; auto; intros v Hv; apply feqb_zero; auto).
  assert (SW : same_qp (size_qp u) W).
  { apply dense_same; auto; [intros v Hv; destruct (feqb_zero v Hv) as [-> _]; apply Rabs_R0|cbn; apply Rabs_R0]. }
  assert (Epe : u_pe u = match d_eqs w with Some _ => d_p w | None => 0 end).
  { unfold u_pe. change (car FA) with b64 in *. destruct (d_eqs w) as [[a' bb]|]; [destruct EQ as [_ [_ [ajc [air [apr [-> _]]]]]]; apply (sf_p _ _ _ _ _ _ SF)|rewrite EQ; reflexivity]. }
  assert (OP : operations u <= dense_operations w).
  { unfold operations, dense_operations. rewrite Epe. pose proof SF as [F1 F2 F3 _ _ _ _ _ [_ CP] [_ CG] _]. change (car FA) with b64 in *. rewrite F1, F2.
    pose proof (compressed_size FA _ _ _ _ _ _ Vn Vn CP). pose proof (compressed_size FA _ _ _ _ _ _ Vm0 Vn CG).
    destruct (d_eqs w) as [[a' bb]|]; [destruct EQ as [Hp [_ [ajc [air [apr [-> CA]]]]]]; pose proof (compressed_size FA _ _ _ _ _ _ Hp Vn CA)|rewrite EQ]; lia. }
  assert (HZ : new_zero amd u l codes q0 q).
  { split; [|rewrite <- ES; exact E0|rewrite <- ES; exact E1|exact Hnew].
    destruct Hq as [H|H]; [left|right; exact H]. change (car FA) with b64 in *. destruct (d_eqs w) as [[a' bb]|]; [|congruence]. rewrite Epe. apply EQ. }
  destruct (exact_dims u) as [D1 [D2 D3]].
  assert (DW : dn (size_qp u) = dn (exact_qp u) /\ dm (size_qp u) = dm (exact_qp u) /\ dp (size_qp u) = dp (exact_qp u)).
  { rewrite (sq_n _ _ SW), (sq_m _ _ SW), (sq_p _ _ SW), (sq_n _ _ SQ), (sq_m _ _ SQ), (sq_p _ _ SQ). auto. }
  destruct DW as [DW1 [DW2 DW3]].
  assert (HK' : operations u <= 2 ^ 51) by lia.
  pose proof (zero_says amd u l codes q0 q VU HZ HK' Fr Fa) as TS.
  pose proof TS as [Gu [FD [Hr [NK _]]]].
  assert (Gg : (0 <= gam u <= g)%R).
  { split; [lra|]. unfold gam, slack_of. apply Rmult_le_compat_r; [apply bpow_ge_0|]. apply IZR_le. exact OP. }
  assert (G2 : (g <= 1 / 2)%R).
  { unfold slack_of. apply Rle_trans with (IZR (2 ^ 51) * bpow radix2 (-52))%R; [apply Rmult_le_compat_r; [apply bpow_ge_0|apply IZR_le; exact HK]|].
    change (IZR (2 ^ 51)) with (bpow radix2 51). rewrite <- bpow_plus. change (bpow radix2 (51 + -52)) with (/ 2)%R. lra. }
  pose proof (met_grows (gam u) g _ Hr Gg G2) as Ht.
  assert (Xx : eq_on (dn (exact_qp u)) (vec_of (q_x q)) x) by (rewrite (sq_n _ _ SQ); exact Hx).
  assert (Xy : eq_on (dp (exact_qp u)) (vec_of (q_y q)) y) by (rewrite (sq_p _ _ SQ); exact Hy).
  assert (Xz : eq_on (dm (exact_qp u)) (vec_of (q_z q)) z) by (rewrite (sq_m _ _ SQ); exact Hz).
  assert (Xs : eq_on (dm (exact_qp u)) (vec_of (q_s q)) s) by (rewrite (sq_m _ _ SQ); exact Hs).
  split; [|split].
  - destruct FD as [FP [FG [Fc [Fh FAe]]]]. pose proof SF as [F1 F2 F3 F4 F5 _ _ _ [_ CP] [_ CG] _]. change (car FA) with b64 in *. rewrite F1 in *. rewrite F2 in *. rewrite F4 in Fc. rewrite F5 in Fh.
    assert (FV : forall (v : arr b64) k, filled v k -> (forall j b, 0 <= j < k -> rd v j = Ok b -> is_finite b = true) -> forall i, 0 <= i < k -> is_finite (get (f0 FA) v i) = true).
    { intros v k Hv HF i Hi. destruct (Hv i Hi) as [b Hb]. pose proof (get_rd (f0 FA) v i b Hb) as Eg. change (car FA) with b64 in *. rewrite Eg. apply (HF i); auto. }
    split; [eapply stored_finite; eauto|]. split; [eapply stored_finite; eauto|]. split; [apply (FV _ _ (vd_c _ _ _ _ _ _ V) Fc)|]. split; [apply (FV _ _ (vd_h _ _ _ _ _ _ V) Fh)|].
    intros a' bb Eb. pose proof (vd_A _ _ _ _ _ _ V a' bb Eb) as [_ [_ Hb]]. change (car FA) with b64 in *. rewrite Eb in EQ. destruct EQ as [Hp [_ [ajc [air [apr [Eu CA]]]]]].
    destruct (FAe _ _ _ _ Eu) as [G1 G3]. rewrite F3 in G3. split; [eapply stored_finite; eauto|apply (FV _ _ Hb G3)].
  - exact (near_kkt_same _ _ _ _ _ _ _ _ _ _ _ _ _ _ _ _ SQ SW DW1 DW2 DW3 Ht Gg Xx Xy Xz Xs NK).
  - intros Ns Nz. pose proof (sf_m _ _ _ _ _ _ SF) as F2. change (car FA) with b64 in *. rewrite <- F2 in Ns, Nz.
    refine (near_optimal_same _ _ _ _ _ _ _ _ _ _ _ _ _ _ _ _ _ SQ SW DW1 DW2 DW3 Ht Gg Xx Xy Xz Xs _ _).
    + rewrite D2. apply Sum_nonneg. intros i Hi. apply Rmult_le_pos; eapply nonneg_entry; eauto.
    + unfold near_optimal. rewrite D1, D2, D3.
      destruct (says_near_optimal u (q_options q0) q (vec_of (q_x q)) ltac:(lia) TS Ns Nz) as [H1 [H2 _]].
      split; [exact H1|]. split; [exact H2|]. intros HS HP x' HF.
      apply (says_near_optimal u (q_options q0) q x' ltac:(lia) TS Ns Nz); auto.
Qed.
End Code.

(** Code 0 from the dense entry point: every number supplied is finite, and the returned point nearly satisfies the
    optimality conditions of the problem written down by the caller; with nonnegative slacks and multipliers it is nearly optimal. *)
Theorem C82_dense amd w dP dA dG l codes q0 q : valid_dense FA amd w dP dA dG -> quiet_dense w (l ++ [Solve FA]) ->
  dense_session FA amd w l = Ok (codes, q0) -> dense_session FA amd w (l ++ [Solve FA]) = Ok (codes ++ [0], q) -> last codes 3 <> 0 ->
  dense_operations w <= 2 ^ 51 -> is_finite (reltol (q_options q0)) = true -> is_finite (abstol (q_options q0)) = true ->
  let Q := dense_data B2R w dP dA dG in let W := dense_data (fun v => Rabs (B2R v)) w dP dA dG in
  let g := slack_of (dense_operations w) in let t := met_of g (B2R (reltol (q_options q0))) in
  let x := vec_of (q_x q) in let y := vec_of (q_y q) in let z := vec_of (q_z q) in let s := vec_of (q_s q) in
  dense_finite w dP dA dG /\ near_kkt Q W t g x y z s /\
  (nonneg_vec (q_s q) (d_m w) -> nonneg_vec (q_z q) (d_m w) -> near_optimal Q W t g (B2R (abstol (q_options q0)) + bpow radix2 (-510)) x y z s).
Proof. intros. eapply dense_says; eauto; intros i Hi; reflexivity. Qed.
Print Assumptions C82_dense.

(** The numbers of a returned list. *)
Definition listed (l : list b64) (i : Z) : R := B2R (nth (Z.to_nat i) l B754_nan).
Definition nonneg_list (l : list b64) : Prop := forall v, In v l -> is_finite v = true /\ (0 <= B2R v)%R.

Lemma lists_listed v k l : lists FA v k l -> eq_on k (vec_of v) (listed l).
Proof.
  intros [_ H] i Hi. destruct (H i Hi) as [b [E1 E2]]. unfold vec_of, listed. rewrite (get_rd (B754_nan : b64) _ _ _ E1). f_equal. symmetry. apply nth_error_nth. exact E2.
Qed.
Lemma lists_nonneg v k l : lists FA v k l -> nonneg_list l -> nonneg_vec v k.
Proof. intros [_ H] N i Hi. destruct (H i Hi) as [b [E1 E2]]. exists b. split; [exact E1|]. apply N. eapply nth_error_In; eauto. Qed.

Lemma dense_dims amd w dP dA dG l codes q : valid_dense FA amd w dP dA dG -> quiet_dense w l -> dense_session FA amd w l = Ok (codes, q) ->
  q_n q = d_n w /\ q_m q = d_m w /\ q_p q = match d_eqs w with Some _ => d_p w | None => 0 end.
Proof.
  intros V Hq E. destruct (C34_dense_is_sparse FA amd w dP dA dG V) as [u [SF [VU ES]]].
  pose proof (dense_equalities FA w u dP dA dG SF) as EQ.
  assert (Epe : u_pe u = match d_eqs w with Some _ => d_p w | None => 0 end).
  { unfold u_pe. change (car FA) with b64 in *. destruct (d_eqs w) as [[a' bb]|]; [destruct EQ as [_ [_ [ajc [air [apr [-> _]]]]]]; apply (sf_p _ _ _ _ _ _ SF)|rewrite EQ; reflexivity]. }
  assert (Hq' : quiet_calls FA u l).
  { destruct Hq as [H|H]; [left|right; exact H]. change (car FA) with b64 in *. destruct (d_eqs w) as [[a' bb]|]; [|congruence]. rewrite Epe. apply EQ. }
  destruct (session_from FA _ (Safe_total FA FA_total) amd u VU) as [q0 [B [r [_ [HB HF]]]]]. destruct (HF _ Hq') as [q' [Eq [HA _]]].
  rewrite <- ES, E in Eq. injection Eq as _ <-. pose proof (at_base _ _ _ _ HA) as HBase.
  rewrite (b_n _ _ _ HBase), (b_m _ _ _ HBase), (b_p _ _ _ HBase). destruct (sd_n _ _ _ _ _ HB) as [-> [-> [-> _]]].
  rewrite (sf_n _ _ _ _ _ _ SF), (sf_m _ _ _ _ _ _ SF), Epe. auto.
Qed.

Lemma between_finite (v : b64) : flt FA (fofZ FA 0) v = true -> flt FA v (fofZ FA 1) = true -> is_finite v = true.
Proof. destruct v as [s|[]| |s mx ex Hx]; intros H1 H2; try reflexivity; vm_compute in H1, H2; discriminate. Qed.

Lemma wanted_finite d : options_ok FA d -> is_finite (reltol (wanted FA d)) = true /\ is_finite (abstol (wanted FA d)) = true.
Proof.
  intros HO. unfold wanted, float_of. cbn [reltol abstol]. destruct d as [d|]; [|split; vm_compute; reflexivity].
  split; [destruct (d K_RELTOL) as [[k|v|]|] eqn:E|destruct (d K_ABSTOL) as [[k|v|]|] eqn:E]; try (vm_compute; reflexivity);
    pose proof (HO d _ _ eq_refl E) as H; inversion H; subst; apply between_finite; assumption.
Qed.

(** Code 0 in the result of a Python call that asked for all outputs: the same, in terms of the returned lists.
    Nothing is assumed of the options beyond being accepted. *)
Theorem C82_python amd w n m p dP dA dG r k f yl zl sl : shapes FA w n m p -> options_ok FA (py_opts w) ->
  valid_dense FA amd (dense_of FA w n m p) dP dA dG -> p <> 0 \/ int_of FA (py_opts w) K_VERBOSE 0 = 0 ->
  dense_operations (dense_of FA w n m p) <= 2 ^ 51 ->
  method_qpSWIFT FA amd w = Ok (Return r) -> r_basic r = Some (0, k) -> r_adv r = Some (f, yl, zl, sl) ->
  let D := dense_of FA w n m p in
  let Q := dense_data B2R D dP dA dG in let W := dense_data (fun v => Rabs (B2R v)) D dP dA dG in
  let g := slack_of (dense_operations D) in let t := met_of g (B2R (reltol (wanted FA (py_opts w)))) in
  let x := listed (r_sol r) in let y := match yl with Some l => listed l | None => fun _ => 0%R end in let z := listed zl in let s := listed sl in
  dense_finite D dP dA dG /\ near_kkt Q W t g x y z s /\
  (nonneg_list sl -> nonneg_list zl -> near_optimal Q W t g (B2R (abstol (wanted FA (py_opts w))) + bpow radix2 (-510)) x y z s).
Proof.
  intros HS HO V HV HK EM EB EA. cbv zeta.
  destruct (C40_python_binary64 amd w n m p dP dA dG HS HO V HV) as [code [q [r' [E [EM' [HR _]]]]]].
  rewrite EM in EM'. injection EM' as <-. destruct HR as [Lx [HB [HAd _]]]. destruct (HB _ _ EB) as [<- _].
  destruct (HAd _ _ _ _ EA) as [_ [Lz [Ls Ly]]]. set (o := wanted FA (py_opts w)) in *. set (D := dense_of FA w n m p) in *.
  assert (De : d_eqs D <> None <-> p <> 0).
  { unfold D, d_eqs, dense_of. cbn [d_A d_b d_p]. destruct HS as [_ [_ [_ [_ HE]]]].
    destruct (py_b w) as [b|]; [destruct (py_A w) as [a|]|]; [|subst p; split; congruence..].
    destruct (Z.eqb_spec p 0) as [->|Hp]; split; congruence. }
  assert (Hq : quiet_dense D ([SetOptions FA o] ++ [Solve FA])).
  { destruct HV as [HV|HV]; [left; apply De; exact HV|right]. intros o' [H|[H|[]]]; [injection H as <-; unfold o, wanted; cbn [verbose]; lia|discriminate H]. }
  destruct (dense_dims amd D dP dA dG _ _ _ V Hq E) as [Dn [Dm Dp]].
  assert (E0 : exists q0, dense_session FA amd D [SetOptions FA o] = Ok ([], q0) /\ q_options q0 = o).
  { unfold dense_session in *. destruct (dense_setup FA amd D) as [q00| |]; try discriminate E. cbn [bind run_calls]. eexists. split; [reflexivity|]. reflexivity. }
  destruct E0 as [q0 [E0 Eo]]. destruct (wanted_finite _ HO) as [Fr Fa]. fold o in Fr, Fa. rewrite <- Eo in Fr, Fa |- *.
  rewrite Dn in Lx. rewrite Dm in Lz, Ls. rewrite Dp in Ly.
  assert (Xy : eq_on (dp (dense_data B2R D dP dA dG)) (vec_of (q_y q)) (match yl with Some l => listed l | None => fun _ => 0%R end)).
  { unfold dense_data. cbn [dp]. unfold D, d_eqs, dense_of in Ly |- *. cbn [d_A d_b d_p] in Ly |- *.
    destruct (py_b w) as [b|]; [destruct (py_A w) as [a|]|]; [|intros i Hi; lia..]. destruct Ly as [y' [-> Ly]]. apply lists_listed. exact Ly. }
  destruct (dense_says amd D dP dA dG [SetOptions FA o] [] q0 q V Hq E0 E ltac:(cbn; lia) HK Fr Fa _ _ _ _ (lists_listed _ _ _ Lx) Xy (lists_listed _ _ _ Lz) (lists_listed _ _ _ Ls))
    as [H1 [H2 H3]].
  split; [exact H1|]. split; [exact H2|]. intros Ns Nz. exact (H3 (lists_nonneg _ _ _ Ls Ns) (lists_nonneg _ _ _ Lz Nz)).
Qed.
Print Assumptions C82_python.

(** ** Case: minimise x^2/2 subject to x >= 1 from Python, tolerances 1/100, all outputs. *)
Definition one_opts : pydict FA := fun k => match k with
  | K_RELTOL => Some (PyFloat (fdec FA 1 100)) | K_ABSTOL => Some (PyFloat (fdec FA 1 100)) | K_OUTPUT => Some (PyInt 2) | _ => None end.
Definition one_py : pycall FA :=
  mkPycall (mkPyarr true [1] (fs FA [0])) (mkPyarr true [1] (fs FA [-1])) (mkPyarr true [1; 1] (fs FA [1])) (mkPyarr true [1; 1] (fs FA [-1]))
    None None (Some one_opts).

Definition check82 (x : res (pyout FA)) : bool :=
  match x with
  | Ok (Return r) => match r_basic r, r_adv r with
    | Some (c, k), Some (_, None, zl, sl) => (c =? 0) && (1 <=? k) && forallb pos_b zl && forallb pos_b sl && (zlen zl =? 1)
    | _, _ => false end
  | _ => false end.
Lemma run82_ok : check82 (method_qpSWIFT FA amd_id one_py) = true.
Proof. vm_compute. reflexivity. Qed.

Lemma same_some {T} (a b : T) : Some a = Some b -> a = b.
Proof. intros H. injection H. auto. Qed.

Lemma C82_case : exists r k f zl sl, shapes FA one_py 1 1 0 /\ options_ok FA (py_opts one_py) /\
  valid_dense FA amd_id (dense_of FA one_py 1 1 0) (entriesF [[1]]) (entriesF []) (entriesF [[-1]]) /\ int_of FA (py_opts one_py) K_VERBOSE 0 = 0 /\
  dense_operations (dense_of FA one_py 1 1 0) <= 2 ^ 51 /\ method_qpSWIFT FA amd_id one_py = Ok (Return r) /\ r_basic r = Some (0, k) /\ 1 <= k /\
  r_adv r = Some (f, None, zl, sl) /\ nonneg_list sl /\ nonneg_list zl.
Proof.
  pose proof run82_ok as C. destruct (method_qpSWIFT FA amd_id one_py) as [[|r]| |] eqn:E; try discriminate C. cbn [check82] in C.
  destruct (r_basic r) as [[c k]|] eqn:EB; [|discriminate C]. destruct (r_adv r) as [[[[f [|]] zl] sl]|] eqn:EA; try discriminate C.
  repeat (apply andb_prop in C; destruct C as [C ?]). apply Z.eqb_eq in C. subst c.
  assert (N : forall l, forallb pos_b l = true -> nonneg_list l) by (intros l Hl v Hv; apply pos_b_ok; rewrite forallb_forall in Hl; auto).
  exists r, k, f, zl, sl. split; [repeat split|]. split.
  { intros d kk v Ed Ek. apply same_some in Ed. rewrite <- Ed in Ek. clear Ed d.
    destruct kk; try discriminate Ek; apply same_some in Ek; rewrite <- Ek; constructor; vm_compute; reflexivity. }
  split.
  { split.
    - cbn; lia.
    - cbn; lia.
    - intros i j Hi Hj. cbn [dense_of d_n] in *. enum i; enum j; reflexivity.
    - intros i j Hi Hj. cbn [dense_of d_n d_m] in *. enum i; enum j; reflexivity.
    - intros a bb Eq. cbn in Eq. discriminate.
    - intros i Hi. cbn [dense_of d_n] in *. enum i; eexists; reflexivity.
    - intros i Hi. cbn [dense_of d_m] in *. enum i; eexists; reflexivity.
    - exists 0, 0. split; [cbn; lia|]. left. split; [cbn; lia|]. vm_compute. reflexivity.
    - cbn [dense_of d_perm]. apply amd_id_ok. cbn. lia. }
  split; [reflexivity|]. split; [vm_compute; discriminate|]. split; [reflexivity|]. split; [exact EB|]. split; [apply Z.leb_le; assumption|].
  split; [exact EA|]. auto.
Qed.
