(** The point in a handle as real vectors, and residuals, objective and stopping test there. *)
From Coq Require Import ZArith Reals List Lia Lra Bool.
From RecordUpdate Require Import RecordUpdate.
From Verif Require Import Res Arith Lists MSparse Csc SemVec MLdl LdlSym LdlNum LdlR LdlFun MSolver VecOps Iter SafeInst Setup
  Session Spec SpecLink QpSpec NewtonR Api.
Import ListNotations.
Open Scope Z_scope.

(** What a caller reads in myQP->x, y, z, s. *)
Definition hx (q : qp R) : Z -> R := get 0%R (q_x q).
Definition hy (q : qp R) : Z -> R := get 0%R (q_y q).
Definition hz (q : qp R) : Z -> R := get 0%R (q_z q).
Definition hs (q : qp R) : Z -> R := get 0%R (q_s q).

Definition eq_on (k : Z) (f g : Z -> R) : Prop := forall i, 0 <= i < k -> f i = g i.

Section Ext.
Variable Q : QPdata.
Variables x x' y y' z z' s s' : Z -> R.
Hypothesis Hx : eq_on (dn Q) x x'.
Hypothesis Hy : eq_on (dp Q) y y'.
Hypothesis Hz : eq_on (dm Q) z z'.
Hypothesis Hs : eq_on (dm Q) s s'.

Lemma res_dual_ext j : res_dual Q x y z j = res_dual Q x' y' z' j.
Proof.
  unfold res_dual. f_equal. f_equal; [f_equal|].
  - f_equal. apply Sum_ext. intros i Hi. rewrite Hx; auto.
  - apply Sum_ext. intros i Hi. rewrite Hz; auto.
  - apply Sum_ext. intros i Hi. rewrite Hy; auto.
Qed.
Lemma res_eq_ext i : res_eq Q x i = res_eq Q x' i.
Proof. unfold res_eq. f_equal. apply Sum_ext. intros j Hj. rewrite Hx; auto. Qed.
Lemma res_in_ext i : 0 <= i < dm Q -> res_in Q x s i = res_in Q x' s' i.
Proof. intros Hi. unfold res_in. rewrite Hs by auto. f_equal. apply Sum_ext. intros j Hj. rewrite Hx; auto. Qed.
Lemma gap_ext : gap Q s z = gap Q s' z'.
Proof. unfold gap. f_equal. apply Sum_ext. intros i Hi. rewrite Hs, Hz; auto. Qed.
Lemma objective_ext : objective Q x = objective Q x'.
Proof.
  unfold objective. f_equal; [f_equal|]; apply Sum_ext; intros i Hi; rewrite Hx by auto; auto.
  f_equal. apply Sum_ext. intros j Hj. rewrite Hx; auto.
Qed.
Lemma passes_ext r a : passes Q r a x y z s <-> passes Q r a x' y' z' s'.
Proof.
  unfold passes. rewrite gap_ext.
  rewrite (Euclid_ext (res_dual Q x y z) (res_dual Q x' y' z')) by (intros; apply res_dual_ext).
  rewrite (Euclid_ext (res_in Q x s) (res_in Q x' s')) by (intros; apply res_in_ext; auto).
  rewrite (Euclid_ext (res_eq Q x) (res_eq Q x')) by (intros; apply res_eq_ext).
  reflexivity.
Qed.
End Ext.

Lemma is_vec_get (a : arr R) k f : is_vec a k f -> eq_on k (get 0%R a) f.
Proof. intros [_ H] i Hi. unfold get. rewrite H by auto. reflexivity. Qed.

Record PointIs (q : qp R) (B : prob R) (pt : point RA) : Prop := mkPointIs {
  pi_x : eq_on (pn B) (hx q) (ptX RA pt);
  pi_y : eq_on (pp B) (hy q) (ptY RA pt);
  pi_z : eq_on (pm B) (hz q) (ptZ RA pt);
  pi_s : eq_on (pm B) (hs q) (ptS RA pt)
}.

Lemma Pt_is B q pt : Pt RA B q pt -> PointIs q B pt.
Proof. intros [H1 H2 H3 H4]. split; apply is_vec_get; assumption. Qed.

Section User.
Variables (amd : amd_t) (u : user R) (B : prob R) (q0 : qp R) (r : Z).
Hypothesis V : valid_user amd u.
Hypothesis HS : Started RA u B q0 r.
Notation Q := (user_qp u).

Lemma dims_user : dn Q = pn B /\ dm Q = pm B /\ dp Q = pp B.
Proof. rewrite <- (started_qp u B q0 r HS). auto. Qed.

Lemma passes_handle q pt o : PointIs q B pt ->
  (passes Q (reltol o) (abstol o) (hx q) (hy q) (hz q) (hs q) <-> stopF RA B pt o = true).
Proof.
  intros [H1 H2 H3 H4]. destruct dims_user as [D1 [D2 D3]].
  rewrite (passes_ext Q (hx q) (ptX RA pt) (hy q) (ptY RA pt) (hz q) (ptZ RA pt) (hs q) (ptS RA pt)) by (rewrite ?D1, ?D2, ?D3; assumption).
  rewrite <- (started_qp u B q0 r HS). symmetry. apply stopF_R. eapply started_dims; eauto.
Qed.

Lemma nrx_handle q pt : PointIs q B pt -> nrm RA (rxF RA B pt) (pn B) = Euclid (res_dual Q (hx q) (hy q) (hz q)) (dn Q).
Proof.
  intros [H1 H2 H3 H4]. destruct dims_user as [D1 [D2 D3]]. rewrite nrm_R, D1. apply Euclid_ext. intros i Hi.
  rewrite rxF_R by (auto; eapply started_dims; eauto). rewrite (started_qp u B q0 r HS). symmetry.
  apply res_dual_ext; rewrite ?D1, ?D2, ?D3; assumption.
Qed.
Lemma nry_handle q pt : PointIs q B pt -> nrm RA (ryF RA B pt) (pp B) = Euclid (res_eq Q (hx q)) (dp Q).
Proof.
  intros [H1 H2 H3 H4]. destruct dims_user as [D1 [D2 D3]]. rewrite nrm_R, D3. apply Euclid_ext. intros i Hi.
  rewrite ryF_R. rewrite (started_qp u B q0 r HS). symmetry. apply res_eq_ext; rewrite ?D1; assumption.
Qed.
Lemma nrz_handle q pt : PointIs q B pt -> nrm RA (rzF RA B pt) (pm B) = Euclid (res_in Q (hx q) (hs q)) (dm Q).
Proof.
  intros [H1 H2 H3 H4]. destruct dims_user as [D1 [D2 D3]]. rewrite nrm_R, D2. apply Euclid_ext. intros i Hi.
  rewrite rzF_R. rewrite (started_qp u B q0 r HS). symmetry. apply res_in_ext; rewrite ?D1, ?D2; assumption.
Qed.
Lemma nmu_handle q pt : PointIs q B pt -> nmuF RA B pt = gap Q (hs q) (hz q).
Proof.
  intros [H1 H2 H3 H4]. destruct dims_user as [D1 [D2 D3]].
  rewrite nmuF_R by (eapply started_dims; eauto). rewrite (started_qp u B q0 r HS). symmetry.
  apply gap_ext; rewrite D2; assumption.
Qed.
Lemma fval_handle q pt : PointIs q B pt -> fvalF RA B pt = objective Q (hx q).
Proof.
  intros [H1 H2 H3 H4]. destruct dims_user as [D1 [D2 D3]]. rewrite fvalF_R.
  rewrite (started_qp u B q0 r HS). symmetry. apply objective_ext. rewrite D1. assumption.
Qed.

End User.

(** Complementarity at an interior point is positive. *)
Lemma nmu_pos B pt : Dims B -> interior RA B Rpos pt -> (0 < nmuF RA B pt)%R.
Proof.
  intros HD [Hs Hz]. rewrite nmuF_R by auto. unfold gap. apply Rdiv_lt_0_compat.
  - pose proof (dot_pos (ptS RA pt) (ptZ RA pt) (pm B) (di_m _ HD) Hs Hz) as H. rewrite dotF_R in H. exact H.
  - apply IZR_lt. pose proof (di_m _ HD). cbn [dm qp_of]. lia.
Qed.
