(** The factorisation computed in exact arithmetic is the L D L' factorisation of the reordered matrix, if that
    exists with pivots of magnitude above 1e-14. *)
From Coq Require Import ZArith Reals List Lia Lra Bool.
From Verif Require Import Res Arith Lists MSparse Csc SemVec MLdl LdlSpec LdlSym LdlNum LdlSolve LdlR LdlFun QpSpec StepSpec.
Import ListNotations.
Open Scope Z_scope.

Section Uniq.
Variables (n : Z) (col : cols R) (Pf Qf par : Z -> Z).
Hypothesis HF : forest n par (brows Pf Qf col).
Hypothesis HP : isperm n Pf Qf.
Hypothesis HR : rows_in n n col.
Variables (y Lv : Z -> Z -> R) (Dv : Z -> R).
Hypothesis HN : NumSpec RA n col Pf Qf par y Lv Dv.
Variables (L0 : Z -> Z -> R) (D0 : Z -> R).
Hypothesis U1 : forall i, 0 <= i < n -> L0 i i = 1%R.
Hypothesis U2 : forall i j, 0 <= i < n -> i < j < n -> L0 i j = 0%R.
Hypothesis U3 : forall i k, 0 <= i < n -> 0 <= k < n ->
  ent (col (Pf k)) (Pf i) = Sum n (fun j => L0 i j * D0 j * L0 k j)%R.
Hypothesis U4 : forall j, 0 <= j < n -> (1 / 100000000000000 < Rabs (D0 j))%R.
Notation LL := (LL n col Pf Qf par Lv).
Notation piv := (piv n col Pf Qf par y Lv).

Lemma U3_low r k : 0 <= r <= k -> k < n ->
  ent (col (Pf k)) (Pf r) = (sumr (fun j => L0 r j * D0 j * L0 k j) (zr 0 r) + D0 r * L0 k r)%R.
Proof.
  intros Hr Hk. rewrite U3 by lia. unfold Sum. rewrite (zr_app 0 (r + 1) n), (zr_app 0 r (r + 1)), !sumr_app by lia.
  rewrite (sumr_zero (fun j => (L0 r j * D0 j * L0 k j)%R) (zr (r + 1) n)).
  2:{ intros j Hj. apply in_zr in Hj. rewrite U2 by lia. ring. }
  rewrite (zr_cons r (r + 1)), (zr_nil (r + 1)) by lia. cbn [sumr]. rewrite U1 by lia. ring.
Qed.

Lemma fact_unique k : 0 <= k -> k < n ->
  (forall j, 0 <= j < k -> LL k j = L0 k j) /\ piv k = D0 k /\ Dv k = D0 k.
Proof.
  revert k. apply (Zlt_lower_bound_ind (fun k => k < n -> (forall j, 0 <= j < k -> LL k j = L0 k j) /\ piv k = D0 k /\ Dv k = D0 k) 0).
  intros k IHk Hk Hkn.
  assert (HD0 : forall j, 0 <= j < n -> D0 j <> 0%R).
  { intros j Hj E. pose proof (U4 j Hj) as H. rewrite E, Rabs_R0 in H. lra. }
  assert (Row : forall r, 0 <= r -> r < k -> LL k r = L0 k r).
  { apply (Zlt_lower_bound_ind (fun r => r < k -> LL k r = L0 k r) 0). intros r IHr Hr Hrk.
    pose proof (LDL_upper n col Pf Qf par HF HP HR y Lv Dv HN r k ltac:(lia) Hkn) as E.
    rewrite (Bmat_ent n col Pf Qf HP HR r k) in E by lia. rewrite U3_low in E by lia.
    destruct (Z.eqb_spec r k); [lia|]. rewrite zr_snoc, sumr_app in E by lia. cbn [sumr] in E.
    destruct (IHk r ltac:(lia) ltac:(lia)) as [IL [_ ID]].
    rewrite (sumr_ext _ (fun j => L0 r j * D0 j * L0 k j)%R) in E.
    2:{ intros j Hj. apply in_zr in Hj. rewrite IL, IHr by lia. destruct (IHk j ltac:(lia) ltac:(lia)) as [_ [_ ->]]. reflexivity. }
    assert (E1 : LL r r = 1%R) by (unfold LdlR.LL; rewrite Z.eqb_refl; reflexivity).
    rewrite E1, ID in E. apply (Rmult_eq_reg_l (D0 r)); [|apply HD0; lia]. lra. }
  assert (Ep : piv k = D0 k).
  { rewrite (diag_rel n col Pf Qf par HF y Lv Dv HN k) by lia. rewrite (Bmat_ent n col Pf Qf HP HR k k) by lia.
    rewrite U3_low by lia. rewrite U1 by lia.
    rewrite (sumr_ext (fun j => LL k j * Dv j * LL k j)%R (fun j => L0 k j * D0 j * L0 k j)%R).
    2:{ intros j Hj. apply in_zr in Hj. rewrite Row by lia. destruct (IHk j ltac:(lia) ltac:(lia)) as [_ [_ ->]]. reflexivity. }
    ring. }
  split; [intros j Hj; apply Row; lia|]. split; auto.
  rewrite (Dv_reg n col Pf Qf par y Lv Dv HN k) by lia. rewrite Ep. apply reg_big. apply U4. lia.
Qed.
End Uniq.

(** No pivot is regularised in a regular order. *)
Lemma regular_pivots n col Pf Qf par : forest n par (brows Pf Qf col) -> isperm n Pf Qf -> rows_in n n col ->
  (forall i j, 0 <= i < n -> 0 <= j < n -> ent (col j) i = ent (col i) j) ->
  regular_order n (fun a c => ent (col c) a) Pf ->
  forall a, 0 <= a < n -> (1 / 100000000000000 < Rabs (piv n col Pf Qf par (fac_y RA (numF RA n col Pf Qf par n))
    (fac_L RA (numF RA n col Pf Qf par n)) (Qf a)))%R.
Proof.
  intros HF HP HR Hsym [L0 [D0 [U1 [U2 [U3 U4]]]]] a Ha.
  pose proof (numF_spec RA n col Pf Qf par HF div_ok_R) as HN. pose proof (qf_range _ _ _ HP a Ha) as Hq.
  destruct (fact_unique n col Pf Qf par HF HP HR _ _ _ HN L0 D0 U1 U2 U3 U4 (Qf a) ltac:(lia) ltac:(lia)) as [_ [E _]].
  cbn [car RA] in *. rewrite E. apply U4. lia.
Qed.

(** The change of the diagonal is the one the rule prescribes. *)
Lemma regularised_fact n col Pf Qf par : forest n par (brows Pf Qf col) -> isperm n Pf Qf -> rows_in n n col ->
  (forall i j, 0 <= i < n -> 0 <= j < n -> ent (col j) i = ent (col i) j) ->
  let pv := piv n col Pf Qf par (fac_y RA (numF RA n col Pf Qf par n)) (fac_L RA (numF RA n col Pf Qf par n)) in
  regularised n (fun a c => ent (col c) a) Pf (fun a => reg (pv (Qf a)) - pv (Qf a))%R.
Proof.
  intros HF HP HR Hsym pv. pose proof (numF_spec RA n col Pf Qf par HF div_ok_R) as HN.
  set (Lv := fac_L RA (numF RA n col Pf Qf par n)) in *. set (Dv := fac_D RA (numF RA n col Pf Qf par n)) in *.
  set (y := fac_y RA (numF RA n col Pf Qf par n)) in *.
  exists (LL n col Pf Qf par Lv), Dv. split; [|split; [|split]].
  - intros i Hi. unfold LL. rewrite Z.eqb_refl. reflexivity.
  - intros i j Hi Hj. eapply LL_upper; eauto; lia.
  - intros i k Hi Hk. unfold Sum. rewrite (LDL_entry n col Pf Qf par HF HP HR y Lv Dv HN Hsym i k) by auto.
    rewrite (qf_pf _ _ _ HP) by auto. fold pv. rewrite (Dv_reg n col Pf Qf par y Lv Dv HN k Hk). reflexivity.
  - intros k Hk. rewrite (qf_pf _ _ _ HP) by auto. rewrite (Dv_reg n col Pf Qf par y Lv Dv HN k Hk). fold pv. cbv zeta.
    replace (reg (pv k) - (reg (pv k) - pv k))%R with (pv k) by ring. split.
    + intros H. rewrite reg_big by lra. ring.
    + intros H. unfold reg. destruct (Rle_dec (Rabs (pv k)) _); [reflexivity|contradiction].
Qed.
