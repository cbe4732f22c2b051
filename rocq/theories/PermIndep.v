(** In exact arithmetic, as long as no pivot is regularised, the iterates do not depend on the ordering. *)
From Coq Require Import ZArith Reals List Lia Lra Bool.
From RecordUpdate Require Import RecordUpdate.
From Verif Require Import Res Arith Lists MSparse Csc SemVec TransposeProofs KktProofs MLdl MSolver
  LdlSpec LdlSym LdlNum LdlSolve LdlR LdlFun VecOps Iter SafeInst Setup Session QpSpec NewtonR.
Import ListNotations.
Open Scope Z_scope.

(** A symmetric matrix for which every system has a solution is injective. *)
Lemma sym_inj (N : Z) (k : Z -> Z -> R) (u v : Z -> R) :
  (forall a c, 0 <= a < N -> 0 <= c < N -> k a c = k c a) ->
  (forall b : Z -> R, exists x : Z -> R, forall a, 0 <= a < N -> Sum N (fun c => k a c * x c)%R = b a) ->
  (forall a, 0 <= a < N -> Sum N (fun c => k a c * u c)%R = Sum N (fun c => k a c * v c)%R) ->
  forall a, 0 <= a < N -> u a = v a.
Proof.
  intros Hsym Hex E. set (w := fun c => (u c - v c)%R).
  assert (Hw : forall a, 0 <= a < N -> Sum N (fun c => k a c * w c)%R = 0%R).
  { intros a Ha. unfold w. rewrite (Sum_ext N _ (fun c => k a c * u c - k a c * v c)%R) by (intros; ring).
    rewrite Sum_minus, E by auto. lra. }
  destruct (Hex w) as [x Hx].
  assert (Hww : Sum N (fun a => w a * w a)%R = 0%R).
  { rewrite (Sum_ext N _ (fun a => Sum N (fun c => w a * (k a c * x c)))%R).
    2:{ intros a Ha. rewrite Sum_scal, Hx by auto. reflexivity. }
    rewrite Sum_swap. apply Sum_zero. intros c Hc.
    rewrite (Sum_ext N _ (fun a => k c a * w a * x c)%R).
    2:{ intros a Ha. rewrite (Hsym a c Ha Hc). ring. }
    rewrite Sum_scal_r, Hw by auto. lra. }
  intros a Ha. assert (H : (w a * w a <= 0)%R).
  { rewrite <- Hww. apply (Sum_ge_term N (fun a => w a * w a)%R); auto. intros. apply Rle_0_sqr. }
  assert (w a = 0%R); [|unfold w in *; lra].
  destruct (Req_dec (w a) 0) as [|Hne]; auto. exfalso.
  pose proof (Rlt_0_sqr (w a) Hne). unfold Rsqr in *. lra.
Qed.

Section Sol.
Variables (N : Z) (col : cols R).
Hypothesis Hrows : rows_in N N col.
Hypothesis Hsym : forall i j, 0 <= i < N -> 0 <= j < N -> ent (col j) i = ent (col i) j.

Definition pivG (Pf Qf par : Z -> Z) (a : Z) : R :=
  piv N col Pf Qf par (fac_y RA (numF RA N col Pf Qf par N)) (fac_L RA (numF RA N col Pf Qf par N)) (Qf a).

Definition unreg (Pf Qf par : Z -> Z) : Prop :=
  forall a, 0 <= a < N -> (1 / 100000000000000 < Rabs (pivG Pf Qf par a))%R.

Lemma solF_R Pf Qf par b a : forest N par (brows Pf Qf col) -> isperm N Pf Qf -> unreg Pf Qf par -> 0 <= a < N ->
  Sum N (fun c => ent (col c) a * solF RA N col Pf Qf par b c)%R = b a.
Proof.
  intros HF HP HU Ha.
  pose proof (numF_spec RA N col Pf Qf par HF div_ok_R) as HN.
  pose proof (perm_solve_R N col Pf Qf par HF HP Hrows _ _ _ HN Hsym b a Ha) as E. cbv zeta in E.
  rewrite (Epert_zero N col Pf Qf par HP _ _ _ HN a Ha) in E.
  2:{ specialize (HU a Ha). unfold pivG in HU. cbn [car RA] in *. lra. }
  rewrite Rmult_0_l, Rplus_0_r in E. exact E.
Qed.

Lemma solF_indep Pf1 Qf1 par1 Pf2 Qf2 par2 b1 b2 :
  forest N par1 (brows Pf1 Qf1 col) -> isperm N Pf1 Qf1 -> unreg Pf1 Qf1 par1 ->
  forest N par2 (brows Pf2 Qf2 col) -> isperm N Pf2 Qf2 -> unreg Pf2 Qf2 par2 ->
  (forall a, 0 <= a < N -> b1 a = b2 a) ->
  forall a, 0 <= a < N -> solF RA N col Pf1 Qf1 par1 b1 a = solF RA N col Pf2 Qf2 par2 b2 a.
Proof.
  intros F1 P1 U1 F2 P2 U2 Eb. apply (sym_inj N (fun a c => ent (col c) a)).
  - intros a c Ha Hc. apply Hsym; auto.
  - intros b. exists (solF RA N col Pf1 Qf1 par1 b). intros a Ha. apply solF_R; auto.
  - intros a Ha. rewrite !solF_R; auto.
Qed.
End Sol.

(** ** Extensionality of the vector operations on the index range *)

Lemma dotF_ext (u v u' v' : Z -> R) k :
  (forall i, 0 <= i < k -> u i = u' i) -> (forall i, 0 <= i < k -> v i = v' i) -> dotF RA u v k = dotF RA u' v' k.
Proof. intros H1 H2. rewrite !dotF_R. apply sumr_ext. intros i Hi. apply in_zr in Hi. rewrite H1, H2; auto. Qed.

Lemma stepF_ext (v d v' d' : Z -> R) k :
  (forall i, 0 <= i < k -> v i = v' i) -> (forall i, 0 <= i < k -> d i = d' i) -> stepF RA v d k = stepF RA v' d' k.
Proof.
  intros H1 H2. unfold stepF. assert (E : stepS RA v d k = stepS RA v' d' k); [|rewrite E; reflexivity].
  unfold stepS. apply fold_left_ext_in. intros s i Hi. apply in_zr in Hi. rewrite H1, H2; auto.
Qed.

Lemma rhosumF_ext (s ds z dz s' ds' z' dz' : Z -> R) ap ad k :
  (forall i, 0 <= i < k -> s i = s' i) -> (forall i, 0 <= i < k -> ds i = ds' i) ->
  (forall i, 0 <= i < k -> z i = z' i) -> (forall i, 0 <= i < k -> dz i = dz' i) ->
  rhoF RA s ds z dz ap ad k = rhoF RA s' ds' z' dz' ap ad k.
Proof.
  intros H1 H2 H3 H4. unfold rhoF. f_equal.
  - unfold rhosumF. apply fold_left_ext_in. intros a i Hi. apply in_zr in Hi. rewrite H1, H2, H3, H4; auto.
  - apply dotF_ext; auto.
Qed.

(** ** Two problems that differ in the ordering only *)

Section Two.
Variables (n m p : Z) (pcol acol gcol : cols R) (fc fb fh : Z -> R) (sd : R).
Variables (Pf1 Qf1 par1 Pf2 Qf2 par2 : Z -> Z).
Notation B1 := (mkProb RA n m p pcol acol gcol fc fb fh sd Pf1 Qf1 par1).
Notation B2 := (mkProb RA n m p pcol acol gcol fc fb fh sd Pf2 Qf2 par2).
Notation N := (n + p + m).
Hypothesis HD : Dims B1.
Hypothesis Hsym : symmetric (qp_of B1).
Hypothesis Hrow : forall i, 0 <= i < m -> tcol gcol n i <> [].
Hypothesis F1 : forest N par1 (brows Pf1 Qf1 (K0 RA B1)).
Hypothesis F2 : forest N par2 (brows Pf2 Qf2 (K0 RA B2)).
Hypothesis P1 : isperm N Pf1 Qf1.
Hypothesis P2 : isperm N Pf2 Qf2.

Lemma HD2 : Dims B2.
Proof. destruct HD. split; auto. Qed.

Record pt_eq (a b : point RA) : Prop := mkPtEq {
  pe_x : forall i, 0 <= i < n -> ptX RA a i = ptX RA b i;
  pe_y : forall i, 0 <= i < p -> ptY RA a i = ptY RA b i;
  pe_z : forall i, 0 <= i < m -> ptZ RA a i = ptZ RA b i;
  pe_s : forall i, 0 <= i < m -> ptS RA a i = ptS RA b i
}.

Section Step.
Variables pt1 pt2 : point RA.
Hypothesis E : pt_eq pt1 pt2.
Hypothesis I1 : interior RA B1 Rpos pt1.
Hypothesis I2 : interior RA B2 Rpos pt2.
Hypothesis U1 : forall a, 0 <= a < N -> (1 / 100000000000000 < Rabs (pivotF B1 pt1 a))%R.
Hypothesis U2 : forall a, 0 <= a < N -> (1 / 100000000000000 < Rabs (pivotF B2 pt2 a))%R.

Lemma rxF_eq j : 0 <= j < n -> rxF RA B1 pt1 j = rxF RA B2 pt2 j.
Proof.
  intros Hj. rewrite (rxF_R B1 HD pt1 j Hj), (rxF_R B2 HD2 pt2 j Hj). unfold res_dual.
  cbn [qp_of dn dm dp dP dA dG dc pn pm pp pP pA pG pc]. destruct E as [Ex Ey Ez Es]. cbn [car RA] in *.
  f_equal. f_equal; [f_equal|].
  - f_equal. apply Sum_ext. intros k Hk. rewrite Ex; auto.
  - apply Sum_ext. intros k Hk. rewrite Ez; auto.
  - apply Sum_ext. intros k Hk. rewrite Ey; auto.
Qed.

Lemma ryF_eq j : ryF RA B1 pt1 j = ryF RA B2 pt2 j.
Proof.
  rewrite (ryF_R B1 pt1 j), (ryF_R B2 pt2 j). unfold res_eq. cbn [qp_of dn db dA pn pb pA].
  f_equal. apply Sum_ext. intros k Hk. destruct E as [Ex]. cbn [car RA] in *. rewrite Ex; auto.
Qed.

Lemma rzF_eq j : 0 <= j < m -> rzF RA B1 pt1 j = rzF RA B2 pt2 j.
Proof.
  intros Hj. rewrite (rzF_R B1 pt1 j), (rzF_R B2 pt2 j). unfold res_in. cbn [qp_of dn dh dG pn ph pG].
  destruct E as [Ex Ey Ez Es]. cbn [car RA] in *. rewrite Es by auto.
  f_equal. apply Sum_ext. intros k Hk. rewrite Ex; auto.
Qed.

Lemma KF_eq j : 0 <= j < N -> KF RA B1 pt1 j = KF RA B2 pt2 j.
Proof.
  intros Hj. rewrite (KF_kkt B1 HD pt1 I1 Hrow j Hj), (KF_kkt B2 HD2 pt2 I2 Hrow j Hj).
  unfold kkt_col. cbn [pn pp pP pA pG]. destruct (j <? n); auto. destruct (Z.ltb_spec j (n + p)); auto.
  destruct E as [Ex Ey Ez Es]. cbn [car RA] in *.
  rewrite Ez, Es by lia. reflexivity.
Qed.

Lemma lamF_eq i : 0 <= i < m -> lamF RA pt1 i = lamF RA pt2 i.
Proof. intros Hi. unfold lamF. destruct E as [Ex Ey Ez Es]. rewrite Ez, Es; auto. Qed.

Lemma muF_eq : muF RA B1 pt1 = muF RA B2 pt2.
Proof. unfold muF. cbn [pm]. f_equal. apply dotF_ext; intros; apply lamF_eq; auto. Qed.

Lemma dirU_eq ds ds' : (forall i, 0 <= i < m -> ds i = ds' i) ->
  forall a, 0 <= a < N -> dirU RA B1 pt1 ds a = dirU RA B2 pt2 ds' a.
Proof.
  intros Ed. unfold dirU, solK.
  assert (HD' := HD). destruct HD' as [Dn Dm Dp DP DG DA]. cbn [pn pm pp] in *.
  (* both systems, as equations *)
  apply (sym_inj N (fun a c => ent (KF RA B1 pt1 c) a)).
  - intros a c Ha Hc. apply (KF_sym B1 HD pt1 I1 Hsym Hrow); auto.
  - intros b. exists (solK RA B1 pt1 b). intros a Ha.
    pose proof (solK_R B1 HD pt1 I1 F1 P1 Hsym Hrow b a Ha) as Eq.
    rewrite (pertF_zero B1 pt1 a (U1 a Ha)), Rmult_0_l, Rplus_0_r in Eq. exact Eq.
  - intros a Ha.
    pose proof (solK_R B1 HD pt1 I1 F1 P1 Hsym Hrow (rhsF RA B1 pt1 ds) a Ha) as Eq1.
    rewrite (pertF_zero B1 pt1 a (U1 a Ha)), Rmult_0_l, Rplus_0_r in Eq1.
    pose proof (solK_R B2 HD2 pt2 I2 F2 P2 Hsym Hrow (rhsF RA B2 pt2 ds') a Ha) as Eq2.
    rewrite (pertF_zero B2 pt2 a (U2 a Ha)), Rmult_0_l, Rplus_0_r in Eq2.
    etransitivity; [exact Eq1|]. etransitivity.
    2:{ etransitivity; [symmetry; exact Eq2|]. apply Sum_ext. intros c Hc. rewrite KF_eq by auto. reflexivity. }
    unfold rhsF, stack3, rhs3. cbn [pn pp].
    destruct (Z.ltb_spec a n); [apply rxF_eq; lia|]. destruct (Z.ltb_spec a (n + p)); [apply ryF_eq|].
    rewrite rzF_eq, Ed by lia. destruct E as [Ex Ey Ez Es]. rewrite Ez by lia. reflexivity.
Qed.

Lemma dirZ_eq ds ds' : (forall i, 0 <= i < m -> ds i = ds' i) ->
  forall i, 0 <= i < m -> dirZ RA B1 pt1 ds i = dirZ RA B2 pt2 ds' i.
Proof. intros Ed i Hi. unfold dirZ. cbn [pn pp]. destruct HD. cbn [pn pp pm] in *. apply dirU_eq; auto; lia. Qed.

Lemma dirS_eq ds ds' : (forall i, 0 <= i < m -> ds i = ds' i) ->
  forall i, 0 <= i < m -> dirS RA B1 pt1 ds i = dirS RA B2 pt2 ds' i.
Proof.
  intros Ed i Hi. unfold dirS, recF. rewrite (dirZ_eq ds ds'), Ed by auto. destruct E as [Ex Ey Ez Es].
  rewrite Ez, Es by auto. reflexivity.
Qed.

Lemma ds1_eq i : 0 <= i < m -> ds1 RA pt1 i = ds1 RA pt2 i.
Proof. intros Hi. unfold ds1, dsF_newton. rewrite lamF_eq; auto. Qed.

Lemma sig1_eq : sig1 RA B1 pt1 = sig1 RA B2 pt2.
Proof.
  unfold sig1, rho1, ap1, ad1. cbn [pm psd].
  pose proof (dirS_eq _ _ ds1_eq) as HS. pose proof (dirZ_eq _ _ ds1_eq) as HZ.
  destruct E as [Ex Ey Ez Es].
  rewrite (stepF_ext (ptS RA pt1) (dirS RA B1 pt1 (ds1 RA pt1)) (ptS RA pt2) (dirS RA B2 pt2 (ds1 RA pt2)) m) by auto.
  rewrite (stepF_ext (ptZ RA pt1) (dirZ RA B1 pt1 (ds1 RA pt1)) (ptZ RA pt2) (dirZ RA B2 pt2 (ds1 RA pt2)) m) by auto.
  rewrite (rhosumF_ext (ptS RA pt1) (dirS RA B1 pt1 (ds1 RA pt1)) (ptZ RA pt1) (dirZ RA B1 pt1 (ds1 RA pt1))
             (ptS RA pt2) (dirS RA B2 pt2 (ds1 RA pt2)) (ptZ RA pt2) (dirZ RA B2 pt2 (ds1 RA pt2))) by auto.
  reflexivity.
Qed.

Lemma dsFin_eq sg i : 0 <= i < m -> dsFin RA B1 pt1 sg i = dsFin RA B2 pt2 sg i.
Proof.
  intros Hi. unfold dsFin, predq. cbn [psd]. destruct (flt RA sd sg).
  - unfold dsF_corr. rewrite lamF_eq, sig1_eq, muF_eq, (dirS_eq _ _ ds1_eq), (dirZ_eq _ _ ds1_eq); auto.
  - unfold dsF_center. rewrite lamF_eq, muF_eq; auto.
Qed.

Lemma sigF_eq sg : sigF RA B1 pt1 sg = sigF RA B2 pt2 sg.
Proof. unfold sigF, predq. cbn [psd]. destruct (flt RA sd sg); auto. apply sig1_eq. Qed.

Lemma apF_eq sg : apF RA B1 pt1 sg = apF RA B2 pt2 sg.
Proof.
  unfold apF. cbn [pm]. rewrite (stepF_ext _ _ (ptS RA pt2) (dirS RA B2 pt2 (dsFin RA B2 pt2 sg)) m); auto.
  - apply E.
  - apply dirS_eq. intros; apply dsFin_eq; auto.
Qed.

Lemma adF_eq sg : adF RA B1 pt1 sg = adF RA B2 pt2 sg.
Proof.
  unfold adF. cbn [pm]. rewrite (stepF_ext _ _ (ptZ RA pt2) (dirZ RA B2 pt2 (dsFin RA B2 pt2 sg)) m); auto.
  - apply E.
  - apply dirZ_eq. intros; apply dsFin_eq; auto.
Qed.

Lemma nextF_eq sg : pt_eq (nextF RA B1 pt1 sg) (nextF RA B2 pt2 sg).
Proof.
  assert (HD' := HD). destruct HD' as [Dn Dm Dp _ _ _]. cbn [pn pm pp] in *.
  assert (Ed : forall i, 0 <= i < m -> dsFin RA B1 pt1 sg i = dsFin RA B2 pt2 sg i) by (intros; apply dsFin_eq; auto).
  split; cbn [nextF ptX ptY ptZ ptS]; intros i Hi; unfold axpyF; rewrite ?apF_eq, ?adF_eq.
  - rewrite (pe_x _ _ E) by auto. unfold dirX. rewrite (dirU_eq _ _ Ed) by lia. reflexivity.
  - rewrite (pe_y _ _ E) by auto. unfold dirY. cbn [pn]. rewrite (dirU_eq _ _ Ed) by lia. reflexivity.
  - rewrite (pe_z _ _ E) by auto. rewrite (dirZ_eq _ _ Ed) by lia. reflexivity.
  - rewrite (pe_s _ _ E) by auto. rewrite (dirS_eq _ _ Ed) by lia. reflexivity.
Qed.
End Step.

(** Stopping test and statistics. *)
Section Stat.
Variables pt1 pt2 : point RA.
Hypothesis E : pt_eq pt1 pt2.

Lemma nrm_ext u v k : (forall i, 0 <= i < k -> u i = v i) -> nrm RA u k = nrm RA v k.
Proof. intros H. unfold nrm. rewrite (dotF_ext u u v v) by auto. reflexivity. Qed.

Lemma nmuF_eq : nmuF RA B1 pt1 = nmuF RA B2 pt2.
Proof. unfold nmuF. cbn [pm]. rewrite (dotF_ext _ _ (ptS RA pt2) (ptZ RA pt2)); auto; apply E. Qed.

Lemma fvalF_eq : fvalF RA B1 pt1 = fvalF RA B2 pt2.
Proof.
  rewrite !fvalF_R. unfold objective. cbn [qp_of dn dP dc pn pP pc]. f_equal; [f_equal|].
  - apply Sum_ext. intros i Hi. rewrite (pe_x _ _ E) by auto. f_equal. apply Sum_ext. intros j Hj.
    rewrite (pe_x _ _ E) by auto. reflexivity.
  - apply Sum_ext. intros i Hi. rewrite (pe_x _ _ E) by auto. reflexivity.
Qed.

Lemma resid_stats_eq st : resid_stats RA B1 pt1 st = resid_stats RA B2 pt2 st.
Proof.
  unfold resid_stats. cbn [pn pm pp].
  rewrite (nrm_ext (rxF RA B1 pt1) (rxF RA B2 pt2) n) by (intros; apply rxF_eq; auto).
  rewrite (nrm_ext (ryF RA B1 pt1) (ryF RA B2 pt2) p) by (intros; apply ryF_eq; auto).
  rewrite (nrm_ext (rzF RA B1 pt1) (rzF RA B2 pt2) m) by (intros; apply rzF_eq; auto).
  rewrite nmuF_eq, fvalF_eq. reflexivity.
Qed.

Lemma stopF_eq o : stopF RA B1 pt1 o = stopF RA B2 pt2 o.
Proof.
  unfold stopF. cbn [pn pm pp].
  rewrite (nrm_ext (rxF RA B1 pt1) (rxF RA B2 pt2) n) by (intros; apply rxF_eq; auto).
  rewrite (nrm_ext (ryF RA B1 pt1) (ryF RA B2 pt2) p) by (intros; apply ryF_eq; auto).
  rewrite (nrm_ext (rzF RA B1 pt1) (rzF RA B2 pt2) m) by (intros; apply rzF_eq; auto).
  rewrite nmuF_eq. reflexivity.
Qed.
End Stat.

(** ** Whole solves *)

Record snap_eq (a b : snap RA) : Prop := mkSnapEq {
  se_pt : pt_eq (sn_pt RA a) (sn_pt RA b);
  se_o : sn_o RA a = sn_o RA b;
  se_st : (sn_st RA a) <| AMD_RESULT := 0 |> = (sn_st RA b) <| AMD_RESULT := 0 |>
}.

(** No pivot is regularised in the first k iterations from s. *)
Definition clean (B : prob R) (k : nat) (s : snap RA) : Prop :=
  forall j a, (j < k)%nat -> 0 <= a < pN B ->
    (1 / 100000000000000 < Rabs (pivotF B (sn_pt RA (walk RA B j s)) a))%R.

Lemma amd_resid B pt st st' : st <| AMD_RESULT := 0 |> = st' <| AMD_RESULT := 0 |> ->
  (resid_stats RA B pt st) <| AMD_RESULT := 0 |> = (resid_stats RA B pt st') <| AMD_RESULT := 0 |>.
Proof.
  destruct st as [s1 s2 s3 s4 s5 s6 s7 s8 s9 s10 s11]. destruct st' as [t1 t2 t3 t4 t5 t6 t7 t8 t9 t10 t11]. intros H. unfold resid_stats. cbn in *.
  injection H as -> -> -> -> -> -> -> -> -> ->. reflexivity.
Qed.

Lemma walk_eq k s1 s2 : snap_eq s1 s2 -> interior RA B1 Rpos (sn_pt RA s1) -> interior RA B2 Rpos (sn_pt RA s2) ->
  clean B1 k s1 -> clean B2 k s2 -> snap_eq (walk RA B1 k s1) (walk RA B2 k s2).
Proof.
  intros Hs I1 I2 C1 C2. induction k as [|k IH]; auto.
  assert (IH' : snap_eq (walk RA B1 k s1) (walk RA B2 k s2)).
  { apply IH; intros j a Hj Ha; [apply C1|apply C2]; auto; lia. }
  clear IH. cbn [walk]. destruct IH' as [Ept Eo Est].
  pose proof (walk_interior RA B1 Rpos k s1 Safe_R I1) as J1.
  pose proof (walk_interior RA B2 Rpos k s2 Safe_R I2) as J2.
  assert (U1 : forall a, 0 <= a < N -> (1 / 100000000000000 < Rabs (pivotF B1 (sn_pt RA (walk RA B1 k s1)) a))%R)
    by (intros a Ha; apply (C1 k a); auto; lia).
  assert (U2 : forall a, 0 <= a < N -> (1 / 100000000000000 < Rabs (pivotF B2 (sn_pt RA (walk RA B2 k s2)) a))%R)
    by (intros a Ha; apply (C2 k a); auto; lia).
  set (w1 := walk RA B1 k s1) in *. set (w2 := walk RA B2 k s2) in *. split; cbn [sn_pt sn_o sn_st].
  - rewrite Eo. apply nextF_eq; auto.
  - rewrite Eo. rewrite (sigF_eq (sn_pt RA w1) (sn_pt RA w2)); auto.
  - rewrite Eo. unfold step_stats.
    rewrite (apF_eq (sn_pt RA w1) (sn_pt RA w2)), (adF_eq (sn_pt RA w1) (sn_pt RA w2)) by auto.
    rewrite (resid_stats_eq (sn_pt RA w1) (sn_pt RA w2)) by auto.
    pose proof (amd_resid B2 (sn_pt RA w2) _ _ Est) as ER.
    unfold predq. cbn [psd]. destruct (sn_st RA w1) as [s3_1 s3_2 s3_3 s3_4 s3_5 s3_6 s3_7 s3_8 s3_9 s3_10 s3_11].
    destruct (sn_st RA w2) as [t1 t2 t3 t4 t5 t6 t7 t8 t9 t10 t11]. cbn in *.
    injection Est as -> -> -> -> -> -> -> -> -> ->. reflexivity.
Qed.

Lemma stop_snap_eq s1 s2 : snap_eq s1 s2 -> snap_eq (stop_snap RA B1 s1) (stop_snap RA B2 s2).
Proof.
  intros [Ept Eo Est]. split; cbn [stop_snap sn_pt sn_o sn_st]; auto.
  rewrite (resid_stats_eq (sn_pt RA s1) (sn_pt RA s2)) by auto.
  pose proof (amd_resid B2 (sn_pt RA s2) _ _ Est) as ER.
  destruct (resid_stats RA B2 (sn_pt RA s2) (sn_st RA s1)) as [a1 a2 a3 a4 a5 a6 a7 a8 a9 a10 a11].
  destruct (resid_stats RA B2 (sn_pt RA s2) (sn_st RA s2)) as [b1 b2 b3 b4 b5 b6 b7 b8 b9 b10 b11].
  cbn in *. injection ER as -> -> -> -> -> -> -> -> -> ->. reflexivity.
Qed.

Lemma stops_eq s1 s2 : snap_eq s1 s2 -> stops RA B1 s1 = stops RA B2 s2.
Proof. intros [Ept Eo Est]. unfold stops. rewrite Eo. apply stopF_eq. auto. Qed.

Lemma clean_le B j k s : (j <= k)%nat -> clean B k s -> clean B j s.
Proof. intros Hjk H i a Hi Ha. apply H; auto. lia. Qed.

Theorem solveF_eq s1 s2 : snap_eq s1 s2 ->
  interior RA B1 Rpos (sn_pt RA s1) -> interior RA B2 Rpos (sn_pt RA s2) ->
  clean B1 (Z.to_nat (maxit (sn_o RA s1))) s1 -> clean B2 (Z.to_nat (maxit (sn_o RA s1))) s2 ->
  snap_eq (solveF RA B1 s1) (solveF RA B2 s2).
Proof.
  intros Hs I1 I2 C1 C2. unfold solveF. rewrite <- (se_o _ _ Hs).
  set (k := Z.to_nat (maxit (sn_o RA s1))) in *.
  assert (W : forall j, (j <= k)%nat -> snap_eq (walk RA B1 j s1) (walk RA B2 j s2)).
  { intros j Hj. apply walk_eq; auto; apply (clean_le _ j k); auto. }
  assert (HR : snap_eq (fst (runF RA B1 k s1)) (fst (runF RA B2 k s2))).
  { destruct (runF_cases RA B1 k s1) as [[E1 H1]|[j1 [Hj1 [S1 [L1 E1]]]]];
      destruct (runF_cases RA B2 k s2) as [[E2 H2]|[j2 [Hj2 [S2 [L2 E2]]]]]; rewrite E1, E2; cbn [fst].
    - apply W. auto.
    - exfalso. rewrite <- (stops_eq _ _ (W j2 ltac:(lia))), H1 in S2 by auto. discriminate.
    - exfalso. rewrite (stops_eq _ _ (W j1 ltac:(lia))), H2 in S1 by auto. discriminate.
    - assert (j1 = j2).
      { destruct (lt_eq_lt_dec j1 j2) as [[H|H]|H]; auto.
        - rewrite (stops_eq _ _ (W j1 ltac:(lia))), L2 in S1 by auto. discriminate.
        - rewrite <- (stops_eq _ _ (W j2 ltac:(lia))), L1 in S2 by auto. discriminate. }
      subst j2. apply stop_snap_eq. apply W. lia. }
  destruct HR as [Ept Eo Est]. unfold finalF. rewrite <- Eo.
  assert (Ei : IterationCount (sn_st RA (fst (runF RA B2 k s2))) = IterationCount (sn_st RA (fst (runF RA B1 k s1)))).
  { apply (f_equal (@IterationCount R)) in Est. cbn in Est. auto. }
  rewrite Ei. destruct (_ =? _); split; cbn [sn_pt sn_o sn_st]; auto.
  destruct (sn_st RA (fst (runF RA B1 k s1))) as [a1 a2 a3 a4 a5 a6 a7 a8 a9 a10 a11].
  destruct (sn_st RA (fst (runF RA B2 k s2))) as [b1 b2 b3 b4 b5 b6 b7 b8 b9 b10 b11].
  cbn in *. injection Est as -> -> -> -> -> -> -> -> -> ->. reflexivity.
Qed.

(** ** The start point *)

Definition pivot0 (B : prob R) : Z -> R := pivG (pN B) (K0 RA B) (pPf B) (pQf B) (ppar B).

Lemma K0_rows : rows_in N N (K0 RA B1).
Proof. destruct HD. cbn [pn pm pp pP pA pG] in *. apply (kkt_col_rows RA n m p); auto; lia. Qed.

Lemma K0_sym i j : 0 <= i < N -> 0 <= j < N -> ent (K0 RA B1 j) i = ent (K0 RA B1 i) j.
Proof. destruct HD. cbn [pn pm pp pP pA pG] in *. apply (kkt_sym n m p); auto; lia. Qed.

Theorem initF_eq :
  (forall a, 0 <= a < N -> (1 / 100000000000000 < Rabs (pivot0 B1 a))%R) ->
  (forall a, 0 <= a < N -> (1 / 100000000000000 < Rabs (pivot0 B2 a))%R) ->
  pt_eq (initF RA B1) (initF RA B2).
Proof.
  intros U1 U2. assert (HD' := HD). destruct HD' as [Dn Dm Dp _ _ _]. cbn [pn pm pp] in *.
  assert (EU : forall a, 0 <= a < N -> initU RA B1 a = initU RA B2 a).
  { apply (solF_indep N (K0 RA B1) K0_rows K0_sym); auto. }
  assert (EX : forall i, 0 <= i < n -> initX RA B1 i = initX RA B2 i) by (intros i Hi; apply EU; lia).
  assert (EZ : forall i, initZi RA B1 i = initZi RA B2 i).
  { intros i. unfold initZi, axpyF. rewrite !multF_R. cbn [pG pn ph].
    rewrite (sumr_ext (fun j => (ent (gcol j) i * initX RA B1 j)%R) (fun j => (ent (gcol j) i * initX RA B2 j)%R)); auto.
    intros j Hj. apply in_zr in Hj. rewrite EX by auto. reflexivity. }
  assert (EM : minmaxF RA (initZi RA B1) m = minmaxF RA (initZi RA B2) m).
  { unfold minmaxF. rewrite EZ. apply fold_left_ext_in. intros s i _. rewrite EZ. reflexivity. }
  split; cbn [initF ptX ptY ptZ ptS]; intros i Hi.
  - apply EX. auto.
  - unfold initY. cbn [pn]. apply EU. lia.
  - unfold initZ, initAd. cbn [pm]. rewrite EM, EZ. reflexivity.
  - unfold initS, initAp. cbn [pm]. rewrite EM, EZ. reflexivity.
Qed.

End Two.
