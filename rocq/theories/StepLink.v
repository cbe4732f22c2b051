(** The functional iteration in exact arithmetic is the step of the specification. *)
From Coq Require Import ZArith Reals List Lia Lra Bool.
From RecordUpdate Require Import RecordUpdate.
From Verif Require Import Res Arith Lists MSparse Csc SemVec TransposeProofs KktProofs MLdl LdlSpec LdlSym LdlNum LdlR LdlFun MSolver VecOps Iter SafeInst Setup
  Session QpSpec NewtonR PointR StepSpec StepFacts LdlUniq.
Import ListNotations.
Open Scope Z_scope.

Lemma stepF_length v d m : 0 <= m -> (forall i, 0 <= i < m -> (0 < v i)%R) -> step_length v d m (stepF RA v d m).
Proof.
  intros Hm Hv. pose proof (stepS_R v d m Hm Hv) as [I1 I2 I3 I4]. unfold stepF.
  destruct (stepS RA v d m) as [a fl]. cbn [fst snd car RA] in *.
  assert (HM : forall i t, 0 <= i < m -> (0 < t)%R -> ((d i < 0)%R -> (t <= - (v i / d i))%R) -> (0 <= v i + t * d i)%R).
  { intros i t Hi Ht H. pose proof (Hv i Hi). destruct (Rlt_dec (d i) 0) as [Hd|Hd].
    - specialize (H Hd). apply (Rmult_le_compat_neg_r (d i)) in H; [|lra].
      replace (- (v i / d i) * d i)%R with (- v i)%R in H by (field; lra). lra.
    - assert (0 <= t * d i)%R by (apply Rmult_le_pos; lra). lra. }
  destruct fl.
  - left. destruct (I4 eq_refl) as [J1 [k [Hk [Hdk Ek]]]]. split; [|exact J1]. split.
    + intros i Hi. apply HM; auto.
    + intros b Hb. exists k. split; auto. apply (Rmult_lt_gt_compat_neg_l (d k)) in Hb; auto.
      rewrite Ek in Hb. replace (d k * - (v k / d k))%R with (- v k)%R in Hb by (field; lra). lra.
  - right. rewrite I3 in I1, I2 by auto. split; [|reflexivity]. intros i Hi. apply HM; auto; lra.
Qed.

Lemma rhosumF_R (s ds z dz : Z -> R) ap ad m : rhosumF RA s ds z dz ap ad m =
  Sum m (fun i => (s i + ap * ds i) * (z i + ad * dz i))%R.
Proof.
  unfold rhosumF, Sum. change (f0 RA) with 0%R.
  assert (G : forall l acc, fold_left (fun acc i => fadd RA acc (fmul RA (fadd RA (s i) (fmul RA ap (ds i))) (fadd RA (z i) (fmul RA ad (dz i))))) l acc
     = (acc + sumr (fun i => (s i + ap * ds i) * (z i + ad * dz i)) l)%R).
  { induction l as [|x l IH]; intros acc; cbn [fold_left sumr].
    - lra.
    - etransitivity; [apply IH|]. cbn [RA fadd fmul]. lra. }
  etransitivity; [apply G|]. lra.
Qed.

(** Entries of the two matrices that are factorised. *)
Section Matrix.
Variable B : prob R.
Hypothesis HD : Dims B.
Hypothesis Hrow : forall i, 0 <= i < pm B -> tcol (pG B) (pn B) i <> [].
Notation n := (pn B).
Notation m := (pm B).
Notation p := (pp B).

Lemma kkt_col_matrix d w a c : (forall i, 0 <= i < m -> d i = (- w i)%R) -> 0 <= a < n + p + m -> 0 <= c < n + p + m ->
  ent (kkt_col RA n p (pP B) (pA B) (pG B) d c) a = kkt_matrix (qp_of B) w a c.
Proof.
  intros Hd Ha Hc. destruct HD as [D1 D2 D3 D4 D5 D6].
  pose proof (kkt_ent_x n m p (pP B) (pA B) (pG B) d D3 D4 D6 D5) as KX.
  pose proof (kkt_ent_y n m p (pP B) (pA B) (pG B) d) as KY.
  pose proof (kkt_ent_z n m p (pP B) (pA B) (pG B) d D3 Hrow) as KZ.
  unfold kkt_matrix. cbn [qp_of dn dp dP dA dG].
  destruct (Z.ltb_spec c n); [apply KX; lia|]. destruct (Z.ltb_spec c (n + p)).
  - replace c with (n + (c - n)) at 1 by lia. apply KY; lia.
  - replace c with (n + p + (c - n - p)) at 1 by lia. rewrite KZ by lia.
    replace (n + p + (c - n - p)) with c by lia. destruct (a <? n); auto. destruct (a =? c); auto. apply Hd. lia.
Qed.

Lemma KF_matrix pt a c : interior RA B Rpos pt -> 0 <= a < pN B -> 0 <= c < pN B ->
  ent (KF RA B pt c) a = kkt_matrix (qp_of B) (fun i => ptS RA pt i / ptZ RA pt i)%R a c.
Proof.
  intros HI Ha Hc. rewrite (KF_kkt B HD pt HI) by auto. apply kkt_col_matrix; auto.
  intros i Hi. unfold Rdiv. cbn [car RA] in *. ring.
Qed.

Lemma K0_matrix a c : 0 <= a < pN B -> 0 <= c < pN B -> ent (K0 RA B c) a = kkt_matrix (qp_of B) (fun _ => 1%R) a c.
Proof.
  intros Ha Hc. unfold K0. change (@pK (car RA) B) with (@pK R B). rewrite (di_K _ HD). apply kkt_col_matrix; auto.
Qed.
End Matrix.

Definition pt_vars (pt : point RA) : vars := mkVars (ptX RA pt) (ptY RA pt) (ptZ RA pt) (ptS RA pt).
Definition dir_vars (B : prob R) (pt : point RA) (ds : Z -> R) : vars :=
  mkVars (dirX RA B pt ds) (dirY RA B pt ds) (dirZ RA B pt ds) (dirS RA B pt ds).

Section Step.
Variable B : prob R.
Notation Q := (qp_of B).
Hypothesis HD : Dims B.
Variable pt : point RA.
Hypothesis HI : interior RA B Rpos pt.
Hypothesis HF : forest (pN B) (ppar B) (brows (pPf B) (pQf B) (K0 RA B)).
Hypothesis HPm : isperm (pN B) (pPf B) (pQf B).
Hypothesis Hsym : symmetric Q.
Hypothesis Hrow : forall i, 0 <= i < pm B -> tcol (pG B) (pn B) i <> [].

Lemma pertF_change : pivot_change Q (pPf B) (pt_vars pt) (pertF B pt).
Proof.
  split; [split; [intros a; apply pertF_small|]|].
  { eapply regularised_ext; [| | | |apply (regularised_fact (pN B) (KF RA B pt) (pPf B) (pQf B) (ppar B))].
    - reflexivity.
    - intros i Hi. apply (pf_range _ _ _ HPm). exact Hi.
    - intros x c Hx Hc. cbv beta. rewrite (KF_matrix B HD Hrow pt) by auto. reflexivity.
    - intros a Ha. reflexivity.
    - exact (forest_KF RA B pt HF).
    - exact HPm.
    - apply KF_rows; auto.
    - intros i j Hi Hj. apply KF_sym; auto. }
  intros HR a Ha. apply pertF_zero.
  apply (regular_pivots (pN B) (KF RA B pt) (pPf B) (pQf B) (ppar B)); auto.
  - exact (forest_KF RA B pt HF).
  - apply KF_rows; auto.
  - intros i j Hi Hj. apply KF_sym; auto.
  - eapply regular_order_ext; [| | |exact HR].
    + reflexivity.
    + intros i Hi. apply (pf_range _ _ _ HPm). exact Hi.
    + intros x c Hx Hc. cbv beta. rewrite (KF_matrix B HD Hrow pt) by auto. reflexivity.
Qed.

Lemma direction_dir ds rc : (forall i, 0 <= i < pm B -> ds i = rc i) -> direction Q (pertF B pt) (pt_vars pt) rc (dir_vars B pt ds).
Proof.
  intros Hr. split.
  - intros j Hj. apply (newton_x B HD pt HI HF HPm Hsym Hrow ds j Hj).
  - intros j Hj. apply (newton_y B HD pt HI HF HPm Hsym Hrow ds j Hj).
  - intros j Hj. apply (newton_z B HD pt HI HF HPm Hsym Hrow ds j Hj).
  - intros i Hi. rewrite <- Hr by auto. apply (newton_comp B pt HI ds i Hi).
Qed.

Lemma sig1_R : sig1 RA B pt = Rmax (psd B) (Rmin 1 (reduction Q (pt_vars pt) (dir_vars B pt (ds1 RA pt)) (ap1 RA B pt) (ad1 RA B pt)) ^ 3)%R.
Proof.
  assert (E : rho1 RA B pt = reduction Q (pt_vars pt) (dir_vars B pt (ds1 RA pt)) (ap1 RA B pt) (ad1 RA B pt)).
  { unfold rho1, rhoF, reduction. destruct HI as [HS HZ]. pose proof (di_m _ HD) as Hm.
    rewrite dv_R.
    - rewrite rhosumF_R, dotF_R. reflexivity.
    - pose proof (dot_pos (ptS RA pt) (ptZ RA pt) (pm B) Hm HS HZ). cbn [car RA] in *. lra. }
  unfold sig1. rewrite MAX_R, MIN_R, E. f_equal. cbn [RA fmul]. change (f1 RA) with 1%R. cbn [car RA]. ring.
Qed.

Lemma step_method sg : method_step Q (pertF B pt) (psd B) sg (pt_vars pt) (pt_vars (nextF RA B pt sg))
  (apF RA B pt sg) (adF RA B pt sg) (sigF RA B pt sg).
Proof.
  pose proof (di_m _ HD) as Hm. pose proof HI as [HS HZ].
  assert (HS' : forall i, 0 <= i < pm B -> (0 < ptS RA pt i)%R) by exact HS.
  assert (HZ' : forall i, 0 <= i < pm B -> (0 < ptZ RA pt i)%R) by exact HZ.
  exists (dir_vars B pt (dsFin RA B pt sg)). split; [|split; [|split]].
  - assert (Hsg : sigF RA B pt sg = if Rltb (psd B) sg then sig1 RA B pt else psd B) by reflexivity.
    rewrite Hsg. clear Hsg. destruct (Rltb (psd B) sg) eqn:E.
    + pose proof E as E'. apply Rltb_true in E'.
      apply (predictor_corrector _ _ _ _ _ _ _ (dir_vars B pt (ds1 RA pt)) (ap1 RA B pt) (ad1 RA B pt)); auto.
      * apply direction_dir. intros i Hi. rewrite (ds1_R B pt HI) by auto. reflexivity.
      * apply stepF_length; auto. cbn. lia.
      * apply stepF_length; auto. cbn. lia.
      * apply sig1_R.
      * apply direction_dir. intros i Hi. rewrite (dsFin_R B HD pt HI sg) by auto.
        destruct (Rlt_dec (psd B) sg); [|contradiction]. cbn [pt_vars dir_vars vs vz car RA]. ring.
    + pose proof E as E'. apply Rltb_false in E'. apply centering; auto.
      apply direction_dir. intros i Hi. rewrite (dsFin_R B HD pt HI sg) by auto.
      destruct (Rlt_dec (psd B) sg); [exfalso; cbn [car RA] in *; lra|]. reflexivity.
  - exists (stepF RA (ptS RA pt) (dirS RA B pt (dsFin RA B pt sg)) (pm B)). split; [apply stepF_length; auto; lia|].
    apply (damped_R (stepF RA (ptS RA pt) (dirS RA B pt (dsFin RA B pt sg)) (pm B))).
  - exists (stepF RA (ptZ RA pt) (dirZ RA B pt (dsFin RA B pt sg)) (pm B)). split; [apply stepF_length; auto; lia|].
    apply (damped_R (stepF RA (ptZ RA pt) (dirZ RA B pt (dsFin RA B pt sg)) (pm B))).
  - split; intros i Hi; cbn [pt_vars dir_vars nextF vx vy vz vs ptX ptY ptZ ptS]; unfold axpyF; cbn [RA fadd fmul]; cbn [car RA]; ring.
Qed.
End Step.

(** ** The starting point *)

Section Start.
Variable B : prob R.
Notation Q := (qp_of B).
Hypothesis HD : Dims B.
Hypothesis HF : forest (pN B) (ppar B) (brows (pPf B) (pQf B) (K0 RA B)).
Hypothesis HPm : isperm (pN B) (pPf B) (pQf B).
Hypothesis Hsym : symmetric Q.
Hypothesis Hrow : forall i, 0 <= i < pm B -> tcol (pG B) (pn B) i <> [].
Notation n := (pn B).
Notation m := (pm B).
Notation p := (pp B).
Notation N := (pN B).

Lemma K0_rows : rows_in N N (K0 RA B).
Proof. unfold K0; change (@pK (car RA) B) with (@pK R B); rewrite (di_K _ HD); destruct HD. apply (kkt_col_rows RA n m p); auto; lia. Qed.

Lemma K0_sym i j : 0 <= i < N -> 0 <= j < N -> ent (K0 RA B j) i = ent (K0 RA B i) j.
Proof. unfold K0; change (@pK (car RA) B) with (@pK R B); rewrite (di_K _ HD); destruct HD. apply (kkt_sym n m p); auto; lia. Qed.

Definition pivot0F (a : Z) : R :=
  piv N (K0 RA B) (pPf B) (pQf B) (ppar B) (fac_y RA (numF RA N (K0 RA B) (pPf B) (pQf B) (ppar B) N))
    (fac_L RA (numF RA N (K0 RA B) (pPf B) (pQf B) (ppar B) N)) (pQf B a).
Definition pert0F (a : Z) : R := (reg (pivot0F a) - pivot0F a)%R.

Lemma init_R a : 0 <= a < N ->
  (Sum N (fun c => ent (K0 RA B c) a * initU RA B c) + pert0F a * initU RA B a)%R = initB RA B a.
Proof.
  intros Ha. pose proof (numF_spec RA N (K0 RA B) (pPf B) (pQf B) (ppar B) HF div_ok_R) as HN.
  pose proof (perm_solve_R N (K0 RA B) (pPf B) (pQf B) (ppar B) HF HPm K0_rows _ _ _ HN K0_sym (initB RA B) a Ha) as E.
  cbv zeta in E.
  assert (EE : Epert N (K0 RA B) (pPf B) (pQf B) (ppar B)
      (fac_y RA (numF RA N (K0 RA B) (pPf B) (pQf B) (ppar B) N))
      (fac_L RA (numF RA N (K0 RA B) (pPf B) (pQf B) (ppar B) N))
      (fac_D RA (numF RA N (K0 RA B) (pPf B) (pQf B) (ppar B) N)) a = pert0F a).
  { unfold Epert, pert0F, pivot0F. f_equal. apply (Dv_reg N (K0 RA B) (pPf B) (pQf B) (ppar B) _ _ _ HN).
    apply (qf_range _ _ _ HPm). auto. }
  rewrite EE in E. exact E.
Qed.

Lemma start_change0 : start_change Q (pPf B) pert0F.
Proof.
  split; [split; [intros a; apply reg_close|]|].
  { eapply regularised_ext; [| | | |apply (regularised_fact N (K0 RA B) (pPf B) (pQf B) (ppar B))].
    - reflexivity.
    - intros i Hi. apply (pf_range _ _ _ HPm). exact Hi.
    - intros x c Hx Hc. cbv beta. rewrite (K0_matrix B HD Hrow) by auto. reflexivity.
    - intros a Ha. reflexivity.
    - exact HF.
    - exact HPm.
    - apply K0_rows.
    - intros i j Hi Hj. apply K0_sym; auto. }
  intros HR a Ha.
  assert (HB : (1 / 100000000000000 < Rabs (pivot0F a))%R).
  { apply (regular_pivots N (K0 RA B) (pPf B) (pQf B) (ppar B)); auto.
    - apply K0_rows.
    - intros i j Hi Hj. apply K0_sym; auto.
    - eapply regular_order_ext; [| | |exact HR].
      + reflexivity.
      + intros i Hi. apply (pf_range _ _ _ HPm). exact Hi.
      + intros x c Hx Hc. cbv beta. rewrite (K0_matrix B HD Hrow) by auto. reflexivity. }
  unfold pert0F. rewrite reg_big by lra. lra.
Qed.

Lemma initZi_R i : initZi RA B i = slack Q (initX RA B) i.
Proof.
  unfold initZi, axpyF, slack. rewrite multF_R. cbn [RA fadd fmul]. change (f0 RA) with 0%R. change (f1 RA) with 1%R.
  cbn [qp_of dh dG dn car RA]. unfold Sum. ring.
Qed.

Lemma start_init : start_point Q pert0F (pt_vars (initF RA B)).
Proof.
  pose proof HD as [D1 D2 D3 D4 D5 D6 di_K].
  assert (HR : forall a, 0 <= a < n + p + m -> (Sum (n + p + m) (fun c => ent (K0 RA B c) a * initU RA B c) +
     pert0F a * initU RA B a)%R = initB RA B a) by (intros a Ha; apply init_R; exact Ha).
  pose proof (kkt_row n m p (pP B) (pA B) (pG B) (fun _ => -1)%R D1 ltac:(lia) D3 D4 D6 D5 Hrow (initU RA B)) as KR.
  cbn [car RA] in *. assert (EK : forall c, K0 RA B c = kkt_col RA n p (pP B) (pA B) (pG B) (fun _ => -1)%R c)
    by (intros c; unfold K0; cbn [car RA]; rewrite di_K; reflexivity).
  assert (HR' : forall a, 0 <= a < n + p + m -> (Sum (n + p + m) (fun c => ent (kkt_col RA n p (pP B) (pA B) (pG B) (fun _ => -1)%R c) a * initU RA B c) +
     pert0F a * initU RA B a)%R = initB RA B a).
  { intros a Ha. rewrite <- (HR a Ha). f_equal. apply Sum_ext. intros c Hc. rewrite EK. reflexivity. }
  clear HR EK.
  change (start_point Q pert0F (mkVars (initX RA B) (initY RA B) (initZ RA B) (initS RA B))).
  split; cbn [vx vy vz vs].
  - exists (fun i => initU RA B (n + p + i)). cbn [qp_of dn dm dp dP dA dG dc db dh]. split; [|split].
    + intros j Hj. specialize (HR' j ltac:(lia)). rewrite KR in HR' by lia. destruct (Z.ltb_spec j n); [|lia].
      etransitivity; [exact HR'|]. unfold initB, stack3. destruct (Z.ltb_spec j (@pn (car RA) B)); [reflexivity|cbn [car RA] in *; lia].
    + intros k Hk. specialize (HR' (n + k) ltac:(lia)). rewrite KR in HR' by lia. destruct (Z.ltb_spec (n + k) n); [lia|].
      destruct (Z.ltb_spec (n + k) (n + p)); [|lia]. replace (n + k - n) with k in HR' by lia.
      etransitivity; [exact HR'|]. unfold initB, stack3. cbn [car RA]. destruct (Z.ltb_spec (n + k) n); [lia|].
      destruct (Z.ltb_spec (n + k) (n + p)); [|lia]. f_equal. lia.
    + intros i Hi. specialize (HR' (n + p + i) ltac:(lia)). rewrite KR in HR' by lia. destruct (Z.ltb_spec (n + p + i) n); [lia|].
      destruct (Z.ltb_spec (n + p + i) (n + p)); [lia|]. replace (n + p + i - n - p) with i in HR' by lia.
      assert (EB : initB RA B (n + p + i) = ph B i).
      { unfold initB, stack3. cbn [car RA]. destruct (Z.ltb_spec (n + p + i) n); [lia|].
        destruct (Z.ltb_spec (n + p + i) (n + p)); [lia|]. f_equal. lia. }
      cbn [car RA] in *. rewrite EB in HR'. rewrite <- HR'.
      change (Sum n (fun c => ent (pG B c) i * initU RA B c) - initU RA B (n + p + i) + pert0F (n + p + i) * initU RA B (n + p + i) =
        Sum n (fun c => ent (pG B c) i * initU RA B c) + -1 * initU RA B (n + p + i) + pert0F (n + p + i) * initU RA B (n + p + i))%R. ring.
  - destruct (minmaxF_R (initZi RA B) m D2) as [H1 [[a [Ha Ea]] _]]. exists (fst (minmaxF RA (initZi RA B) m)). split.
    + split; [intros i Hi; rewrite <- initZi_R; apply H1; exact Hi|]. exists a. split; [exact Ha|]. rewrite Ea. symmetry. apply initZi_R.
    + intros i Hi. unfold initS. rewrite <- initZi_R. unfold initAp.
      cbn [RA flt fopp fadd]. change (f0 RA) with 0%R. change (f1 RA) with 1%R.
      destruct (Rltb _ 0) eqn:E; [apply Rltb_true in E|apply Rltb_false in E]; cbn [car RA] in *;
        match goal with |- context[Rlt_dec ?a ?b] => destruct (Rlt_dec a b) end; lra.
  - destruct (minmaxF_R (initZi RA B) m D2) as [H1 [_ [a [Ha Ea]]]]. exists (snd (minmaxF RA (initZi RA B) m)). split.
    + split; [intros i Hi; rewrite <- initZi_R; apply H1; exact Hi|]. exists a. split; [exact Ha|]. rewrite Ea. symmetry. apply initZi_R.
    + intros i Hi. unfold initZ. rewrite <- initZi_R. unfold initAd.
      cbn [RA flt fopp fadd]. change (f0 RA) with 0%R. change (f1 RA) with 1%R.
      destruct (Rltb _ 0) eqn:E; [apply Rltb_true in E|apply Rltb_false in E]; cbn [car RA] in *;
        match goal with |- context[Rlt_dec ?a ?b] => destruct (Rlt_dec a b) end; lra.
Qed.
End Start.
