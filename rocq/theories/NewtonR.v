(** The functional iteration in exact arithmetic: residuals, the linear system that the direction
    solves, and how the residuals change over one step. *)
From Coq Require Import ZArith Reals List Lia Lra Bool.
From Verif Require Import Res Arith Lists MSparse Csc SemVec TransposeProofs KktProofs MLdl MSolver
  LdlSpec LdlSym LdlNum LdlSolve LdlR LdlFun VecOps Iter SafeInst Setup QpSpec.
Import ListNotations.
Open Scope Z_scope.

(** The quadratic program that the columns describe (duplicates add up). *)
Definition qp_of (B : prob R) : QPdata :=
  mkQPd (pn B) (pm B) (pp B) (fun i j => ent (pP B j) i) (fun i j => ent (pA B j) i) (fun i j => ent (pG B j) i)
        (pc B) (pb B) (ph B).

Record Dims (B : prob R) : Prop := mkDims {
  di_n : 0 <= pn B; di_m : 1 <= pm B; di_p : 0 <= pp B;
  di_P : rows_in (pn B) (pn B) (pP B);
  di_G : rows_in (pm B) (pn B) (pG B);
  di_A : rows_in (pp B) (pn B) (pA B);
  di_K : pK B = kkt_col RA (pn B) (pp B) (pP B) (pA B) (pG B) (minus_one RA)
}.

Lemma ent_shift off (l : list (Z * R)) i : ent (shift off l) i = ent l (i - off).
Proof.
  unfold ent, shift. rewrite sumr_map. apply sumr_ext. intros [r v] _. cbn [fst snd].
  destruct (Z.eqb_spec (off + r) i), (Z.eqb_spec r (i - off)); auto; lia.
Qed.

Lemma ent_nil i : ent [] i = 0%R.
Proof. reflexivity. Qed.

Lemma ent_one r v i : ent [(r, v)] i = if r =? i then v else 0%R.
Proof. unfold ent. simpl. destruct (r =? i); lra. Qed.

(** ** Entries of the assembled matrix *)

Section Kkt.
Variables (n m p : Z) (pcol acol gcol : cols R) (d : Z -> R).
Hypothesis Hn : 0 <= n.
Hypothesis Hm : 0 <= m.
Hypothesis Hp : 0 <= p.
Hypothesis HP : rows_in n n pcol.
Hypothesis HA : rows_in p n acol.
Hypothesis HG : rows_in m n gcol.
Hypothesis Hrow : forall i, 0 <= i < m -> tcol gcol n i <> [].
Notation K := (kkt_col RA n p pcol acol gcol d).

Lemma ent_out_lo (l : list (Z * R)) lo hi i : (forall r v, In (r, v) l -> lo <= r < hi) -> ~ (lo <= i < hi) -> ent l i = 0%R.
Proof. intros H Hi. apply ent_out. intros r v Hin E. subst. apply Hi. eapply H; eauto. Qed.

Lemma kkt_ent_x c a : 0 <= c < n -> 0 <= a < n + p + m ->
  ent (K c) a = if a <? n then ent (pcol c) a else if a <? n + p then ent (acol c) (a - n) else ent (gcol c) (a - n - p).
Proof.
  intros Hc Ha. unfold kkt_col. destruct (Z.ltb_spec c n); [|lia].
  rewrite !ent_app, !ent_shift. replace (a - (n + p)) with (a - n - p) by lia.
  assert (Z1 : ~ (0 <= a < n) -> ent (pcol c) a = 0%R) by (apply (ent_out_lo _ 0 n); intros; eapply HP; eauto).
  assert (Z2 : ~ (0 <= a - n < p) -> ent (acol c) (a - n) = 0%R) by (apply (ent_out_lo _ 0 p); intros; eapply HA; eauto).
  assert (Z3 : ~ (0 <= a - n - p < m) -> ent (gcol c) (a - n - p) = 0%R) by (apply (ent_out_lo _ 0 m); intros; eapply HG; eauto).
  destruct (Z.ltb_spec a n); [rewrite Z2, Z3 by lia; lra|].
  destruct (Z.ltb_spec a (n + p)); [rewrite Z1, Z3 by lia; lra|rewrite Z1, Z2 by lia; lra].
Qed.

Lemma kkt_ent_y k a : 0 <= k < p -> 0 <= a < n + p + m ->
  ent (K (n + k)) a = if a <? n then ent (acol a) k else 0%R.
Proof.
  intros Hk Ha. unfold kkt_col. destruct (Z.ltb_spec (n + k) n); [lia|]. destruct (Z.ltb_spec (n + k) (n + p)); [|lia].
  replace (n + k - n) with k by lia. destruct (Z.ltb_spec a n).
  - apply tcol_ent. lia.
  - apply (ent_out_lo _ 0 n); [|lia]. intros r v Hin. apply in_tcol in Hin. tauto.
Qed.

Lemma kkt_ent_z i a : 0 <= i < m -> 0 <= a < n + p + m ->
  ent (K (n + p + i)) a = if a <? n then ent (gcol a) i else if a =? n + p + i then d i else 0%R.
Proof.
  intros Hi Ha. unfold kkt_col. destruct (Z.ltb_spec (n + p + i) n); [lia|].
  destruct (Z.ltb_spec (n + p + i) (n + p)); [lia|]. replace (n + p + i - n - p) with i by lia.
  pose proof (Hrow i Hi) as Hne. cbn [car RA] in *. destruct (tcol gcol n i) as [|e c] eqn:E; [congruence|]. rewrite <- E. clear Hne.
  rewrite ent_app, ent_one. destruct (Z.ltb_spec a n).
  - rewrite tcol_ent by lia. destruct (Z.eqb_spec (n + p + i) a); [lia|]. lra.
  - rewrite (ent_out_lo _ 0 n); [|intros r v Hin; apply in_tcol in Hin; tauto|lia].
    rewrite Z.eqb_sym. destruct (a =? n + p + i); lra.
Qed.

Lemma kkt_sym : (forall i j, 0 <= i < n -> 0 <= j < n -> ent (pcol j) i = ent (pcol i) j) ->
  forall i j, 0 <= i < n + p + m -> 0 <= j < n + p + m -> ent (K j) i = ent (K i) j.
Proof.
  intros HS.
  assert (cases : forall c, 0 <= c < n + p + m -> (0 <= c < n) \/ (exists k, 0 <= k < p /\ c = n + k) \/ (exists k, 0 <= k < m /\ c = n + p + k)).
  { intros c Hc. destruct (Z.lt_ge_cases c n); [left; lia|]. destruct (Z.lt_ge_cases c (n + p)).
    - right; left. exists (c - n). lia.
    - right; right. exists (c - n - p). lia. }
  intros i j Hi Hj.
  destruct (cases i Hi) as [Ci|[[ki [Ci ->]]|[ki [Ci ->]]]]; destruct (cases j Hj) as [Cj|[[kj [Cj ->]]|[kj [Cj ->]]]];
    rewrite ?kkt_ent_x, ?kkt_ent_y, ?kkt_ent_z by lia;
    repeat match goal with |- context[?a <? ?b] => destruct (Z.ltb_spec a b); try lia end;
    repeat match goal with |- context[?a =? ?b] => destruct (Z.eqb_spec a b); try lia end;
    try reflexivity; try (f_equal; lia).
  - apply HS; auto.
  - rewrite kkt_ent_x by lia. destruct (Z.ltb_spec (n + kj) n); [lia|]. destruct (Z.ltb_spec (n + kj) (n + p)); [|lia]. f_equal; lia.
  - rewrite kkt_ent_x by lia. destruct (Z.ltb_spec (n + p + kj) n); [lia|].
    destruct (Z.ltb_spec (n + p + kj) (n + p)); [lia|]. f_equal; lia.
Qed.

(** Rows of the matrix applied to a vector. *)
Lemma kkt_row u a : 0 <= a < n + p + m ->
  Sum (n + p + m) (fun c => ent (K c) a * u c)%R =
  (if a <? n then
     Sum n (fun c => ent (pcol c) a * u c) + Sum p (fun k => ent (acol a) k * u (n + k)%Z) + Sum m (fun i => ent (gcol a) i * u (n + p + i)%Z)
   else if a <? n + p then Sum n (fun c => ent (acol c) (a - n) * u c)
   else Sum n (fun c => ent (gcol c) (a - n - p) * u c) + d (a - n - p)%Z * u a)%R.
Proof.
  intros Ha. rewrite !Sum_split by lia.
  rewrite (Sum_ext n _ (fun c => (if a <? n then ent (pcol c) a else if a <? n + p then ent (acol c) (a - n) else ent (gcol c) (a - n - p)) * u c)%R)
    by (intros c Hc; rewrite kkt_ent_x by lia; reflexivity).
  rewrite (Sum_ext p _ (fun k => (if a <? n then ent (acol a) k else 0) * u (n + k)%Z)%R)
    by (intros k Hk; rewrite kkt_ent_y by lia; reflexivity).
  rewrite (Sum_ext m _ (fun i => (if a <? n then ent (gcol a) i else if a =? n + p + i then d i else 0) * u (n + p + i)%Z)%R)
    by (intros i Hi; rewrite kkt_ent_z by lia; reflexivity).
  destruct (Z.ltb_spec a n) as [L|L]; [reflexivity|].
  rewrite (Sum_zero p) by (intros; lra).
  destruct (Z.ltb_spec a (n + p)) as [L2|L2].
  - rewrite (Sum_zero m); [lra|]. intros i Hi. destruct (Z.eqb_spec a (n + p + i)); [lia|]. lra.
  - rewrite Rplus_0_r. f_equal. unfold Sum.
    rewrite (sumr_ext _ (fun i => if i =? a - n - p then d i * u (n + p + i)%Z else 0)%R).
    2:{ intros i _. destruct (Z.eqb_spec a (n + p + i)), (Z.eqb_spec i (a - n - p)); try lia; lra. }
    rewrite (sumr_delta (a - n - p) (fun i => d i * u (n + p + i)%Z)%R); [|apply NoDup_zr|apply in_zr; lia].
    f_equal. f_equal. lia.
Qed.

End Kkt.

(** ** Residuals *)

Section Newton.
Variable B : prob R.
Notation n := (pn B).
Notation m := (pm B).
Notation p := (pp B).
Notation N := (pN B).
Notation Q := (qp_of B).
Hypothesis HD : Dims B.

Section AtPoint.
Variable pt : point RA.
Notation X := (ptX RA pt : Z -> R).
Notation Y := (ptY RA pt : Z -> R).
Notation Zv := (ptZ RA pt : Z -> R).
Notation Sv := (ptS RA pt : Z -> R).

Lemma rxF_R j : 0 <= j < n -> rxF RA B pt j = res_dual Q X Y Zv j.
Proof.
  intros Hj. unfold rxF, axpyF, res_dual. cbn [qp_of dP dA dG dc dn dm dp].
  assert (E : (if p =? 0 then tmultF RA (pG B) Zv j (multF RA (pP B) n X j (f0 RA))
               else tmultF RA (pA B) Y j (tmultF RA (pG B) Zv j (multF RA (pP B) n X j (f0 RA)))) =
     (- Sum n (fun k => ent (pP B k) j * X k) - Sum m (fun i => ent (pG B j) i * Zv i) - Sum p (fun i => ent (pA B j) i * Y i))%R).
  { rewrite (tmultF_R (pG B) m) by (intros; eapply (di_G _ HD); eauto). rewrite multF_R. change (f0 RA) with 0%R.
    destruct (Z.eqb_spec p 0) as [E|E].
    - rewrite E. unfold Sum. rewrite (zr_nil 0 0) by lia. simpl. lra.
    - rewrite (tmultF_R (pA B) p) by (intros; eapply (di_A _ HD); eauto). unfold Sum. lra. }
  etransitivity; [apply (f_equal2 Rplus); [exact E|reflexivity]|]. cbn [RA fmul fopp]. change (f1 RA) with 1%R. cbn [car RA] in *. lra.
Qed.

Lemma ryF_R i : ryF RA B pt i = res_eq Q X i.
Proof.
  unfold ryF, axpyF, res_eq. cbn [qp_of dA db dn]. rewrite multF_R. cbn [RA fadd fmul car].
  change (f0 RA) with 0%R. change (f1 RA) with 1%R. unfold Sum. lra.
Qed.

Lemma rzF_R i : rzF RA B pt i = res_in Q X Sv i.
Proof.
  unfold rzF, res_in. cbn [qp_of dG dh dn]. rewrite multF_R. cbn [RA fadd fsub car].
  change (f0 RA) with 0%R. unfold Sum. lra.
Qed.

Lemma nrm_R v k : nrm RA v k = Euclid v k.
Proof. unfold nrm, Euclid. rewrite sq_R by apply dot_self_nonneg. rewrite dotF_R. reflexivity. Qed.

Lemma nmuF_R : nmuF RA B pt = gap Q Sv Zv.
Proof.
  unfold nmuF, gap. cbn [qp_of dm]. rewrite dv_R.
  - rewrite dotF_R. reflexivity.
  - cbn. apply not_0_IZR. pose proof (di_m _ HD). lia.
Qed.

Lemma fvalF_R : fvalF RA B pt = objective Q X.
Proof.
  unfold fvalF, objF, objective. cbn [qp_of dP dc dn]. rewrite !dotF_R. cbn [RA fadd fmul fopp fdec car].
  rewrite (sumr_ext _ (fun i => - (X i * Sum n (fun j => ent (pP B j) i * X j)))%R).
  2:{ intros i _. rewrite multF_R. change (f0 RA) with 0%R. unfold Sum. lra. }
  rewrite sumr_opp. unfold Sum. lra.
Qed.

Lemma sqrt3_pos : (0 < sqrt 3)%R.
Proof. apply sqrt_lt_R0. lra. Qed.

Lemma stopF_R o : stopF RA B pt o = true <-> passes Q (reltol o) (abstol o) X Y Zv Sv.
Proof.
  unfold stopF, passes. rewrite !andb_true_iff.
  rewrite sq_R by (cbn; lra). pose proof sqrt3_pos. cbn [fofZ RA]. rewrite dv_R by lra.
  cbn [flt RA]. rewrite !nrm_R, nmuF_R, !Rltb_true.
  rewrite (Euclid_ext (rxF RA B pt) (res_dual Q X Y Zv)) by (apply rxF_R).
  rewrite (Euclid_ext (rzF RA B pt) (res_in Q X Sv)) by (intros; apply rzF_R).
  rewrite (Euclid_ext (ryF RA B pt) (res_eq Q X)) by (intros; apply ryF_R).
  change (dn Q) with n. change (dm Q) with m. change (dp Q) with p.
  cbn [car RA] in *. destruct (Z.eqb_spec p 0) as [E|E]; split.
  - intros [[[H1 H2] H3] H4]. do 2 (split; [auto|]). split; [intros; contradiction|auto].
  - intros [H1 [H2 [H3 H4]]]. auto.
  - intros [[[H1 H2] H3] H4]. do 2 (split; [auto|]). split; [|auto]. intros _. apply Rltb_true. exact H3.
  - intros [H1 [H2 [H3 H4]]]. split; [|auto]. split; [auto|]. apply Rltb_true. auto.
Qed.

(** ** The direction *)

Hypothesis HI : interior RA B Rpos pt.
Hypothesis HF : forest N (ppar B) (brows (pPf B) (pQf B) (K0 RA B)).
Hypothesis HPm : isperm N (pPf B) (pQf B).
Hypothesis Hsym : symmetric Q.
Hypothesis Hrow : forall i, 0 <= i < m -> tcol (pG B) n i <> [].

(** Pivots of the factorisation before regularisation, in the caller's numbering, and the change that
    regularisation makes to the matrix diagonal. *)
Definition pivotF (a : Z) : R :=
  piv N (KF RA B pt) (pPf B) (pQf B) (ppar B) (fac_y RA (numF RA N (KF RA B pt) (pPf B) (pQf B) (ppar B) N))
    (fac_L RA (numF RA N (KF RA B pt) (pPf B) (pQf B) (ppar B) N)) (pQf B a).
Definition pertF (a : Z) : R := (reg (pivotF a) - pivotF a)%R.

Lemma pertF_small a : (Rabs (pertF a) <= 1 / 10000000 + 1 / 100000000000000)%R.
Proof. apply reg_close. Qed.

Lemma pertF_zero a : (1 / 100000000000000 < Rabs (pivotF a))%R -> pertF a = 0%R.
Proof. intros H. unfold pertF. rewrite reg_big by lra. lra. Qed.

Lemma KF_kkt j : 0 <= j < N ->
  KF RA B pt j = kkt_col RA n p (pP B) (pA B) (pG B) (fun i => - Sv i / Zv i)%R j.
Proof.
  intros Hj. unfold KF, K0. change (@pK (car RA) B) with (@pK R B). rewrite (di_K _ HD). pose proof (di_n _ HD). pose proof (di_m _ HD). pose proof (di_p _ HD).
  rewrite (ovl_kkt_col RA n m p) by (auto; lia).
  unfold kkt_col. cbn [car RA] in *. destruct (j <? n); auto. destruct (Z.ltb_spec j (n + p)); auto.
  destruct (tcol (pG B) n (j - n - p)) as [|e l]; auto. do 3 f_equal. unfold scalF. rewrite dv_R.
  - reflexivity.
  - destruct HI as [_ HZ]. unfold pN in Hj. cbn [car RA] in *. specialize (HZ (j - n - p) ltac:(lia)). unfold Rpos in HZ. cbn [car RA] in *. lra.
Qed.

Lemma Psym i j : 0 <= i < n -> 0 <= j < n -> ent (pP B j) i = ent (pP B i) j.
Proof. intros Hi Hj. apply (Hsym i j); auto. Qed.

Lemma KF_sym i j : 0 <= i < N -> 0 <= j < N -> ent (KF RA B pt j) i = ent (KF RA B pt i) j.
Proof.
  intros Hi Hj. rewrite !KF_kkt by auto. pose proof (di_n _ HD). pose proof (di_m _ HD). pose proof (di_p _ HD).
  apply (kkt_sym n m p); auto; try lia; try apply HD.
Qed.

Lemma KF_rows : rows_in N N (KF RA B pt).
Proof.
  pose proof (di_n _ HD). pose proof (di_m _ HD). pose proof (di_p _ HD).
  intros j r v Hj Hin. rewrite KF_kkt in Hin by auto.
  eapply (kkt_col_rows RA n m p); [lia|lia|lia|apply HD|apply HD|apply HD|exact Hj|exact Hin].
Qed.

Lemma solK_R b a : 0 <= a < N ->
  (Sum N (fun c => ent (KF RA B pt c) a * solK RA B pt b c) + pertF a * solK RA B pt b a)%R = b a.
Proof.
  intros Ha. pose proof (di_n _ HD). pose proof (di_m _ HD). pose proof (di_p _ HD).
  set (HFK := forest_KF RA B pt HF).
  pose proof (numF_spec RA N (KF RA B pt) (pPf B) (pQf B) (ppar B) HFK div_ok_R) as HN.
  assert (HN0 : 0 <= N) by (unfold pN; cbn [car RA] in *; lia).
  pose proof (perm_solve_R N (KF RA B pt) (pPf B) (pQf B) (ppar B) HFK HPm KF_rows _ _ _ HN KF_sym b a Ha) as E.
  cbv zeta in E.
  assert (EE : Epert N (KF RA B pt) (pPf B) (pQf B) (ppar B)
      (fac_y RA (numF RA N (KF RA B pt) (pPf B) (pQf B) (ppar B) N))
      (fac_L RA (numF RA N (KF RA B pt) (pPf B) (pQf B) (ppar B) N))
      (fac_D RA (numF RA N (KF RA B pt) (pPf B) (pQf B) (ppar B) N)) a = pertF a).
  { unfold Epert, pertF, pivotF. f_equal. apply (Dv_reg N (KF RA B pt) (pPf B) (pQf B) (ppar B) _ _ _ HN).
    apply (qf_range _ _ _ HPm). auto. }
  rewrite EE in E. exact E.
Qed.

Section Dir.
Variable ds : Z -> R.
Notation dX := (dirX RA B pt ds : Z -> R).
Notation dY := (dirY RA B pt ds : Z -> R).
Notation dZ := (dirZ RA B pt ds : Z -> R).
Notation dS := (dirS RA B pt ds : Z -> R).

Lemma Zpos i : 0 <= i < m -> (0 < Zv i)%R.
Proof. intros Hi. destruct HI as [_ HZ]. apply (HZ i Hi). Qed.
Lemma Spos i : 0 <= i < m -> (0 < Sv i)%R.
Proof. intros Hi. destruct HI as [HS _]. apply (HS i Hi). Qed.

(** Complementarity, independent of the factorisation. *)
Lemma newton_comp i : 0 <= i < m -> (Zv i * dS i + Sv i * dZ i = ds i)%R.
Proof.
  intros Hi. pose proof (Zpos i Hi). unfold dirS, recF. rewrite dv_R by (cbn [car RA] in *; lra).
  cbn [RA fsub fmul]. field. cbn [car RA] in *; lra.
Qed.

Lemma newton_row a : 0 <= a < N ->
  ((if a <? n then
     Sum n (fun c => ent (pP B c) a * dX c) + Sum p (fun k => ent (pA B a) k * dY k) + Sum m (fun i => ent (pG B a) i * dZ i)
   else if a <? n + p then Sum n (fun c => ent (pA B c) (a - n) * dX c)
   else Sum n (fun c => ent (pG B c) (a - n - p) * dX c) + (- Sv (a - n - p)%Z / Zv (a - n - p)%Z) * dirU RA B pt ds a)
   + pertF a * dirU RA B pt ds a)%R = rhsF RA B pt ds a.
Proof.
  intros Ha. pose proof (di_n _ HD). pose proof (di_m _ HD). pose proof (di_p _ HD).
  pose proof (solK_R (rhsF RA B pt ds) a Ha) as E. fold (dirU RA B pt ds) in E. rewrite <- E. f_equal.
  rewrite (Sum_ext N _ (fun c => ent (kkt_col RA n p (pP B) (pA B) (pG B) (fun i => - Sv i / Zv i)%R c) a * dirU RA B pt ds c)%R)
    by (intros c Hc; rewrite KF_kkt by auto; reflexivity).
  unfold pN. rewrite (kkt_row n m p) by (auto; try lia; apply HD).
  destruct (a <? n); [|destruct (a <? n + p)]; try reflexivity.
Qed.

Lemma newton_x j : 0 <= j < n ->
  (Sum n (fun c => dP Q j c * dX c) + Sum p (fun k => dA Q k j * dY k) + Sum m (fun i => dG Q i j * dZ i) + pertF j * dX j)%R
  = res_dual Q X Y Zv j.
Proof.
  intros Hj. pose proof (di_m _ HD). pose proof (di_p _ HD).
  pose proof (newton_row j ltac:(unfold pN; cbn [car RA] in *; lia)) as E. destruct (Z.ltb_spec j n); [|lia].
  rewrite <- rxF_R by auto. unfold rhsF, stack3 in E. cbn [car RA] in *. destruct (Z.ltb_spec j n); [|lia]. exact E.
Qed.

Lemma newton_y k : 0 <= k < p ->
  (Sum n (fun c => dA Q k c * dX c) + pertF (n + k)%Z * dY k)%R = res_eq Q X k.
Proof.
  intros Hk. pose proof (di_n _ HD). pose proof (di_m _ HD).
  pose proof (newton_row (n + k) ltac:(unfold pN; cbn [car RA] in *; lia)) as E. destruct (Z.ltb_spec (n + k) n); [lia|].
  destruct (Z.ltb_spec (n + k) (n + p)); [|lia]. unfold rhsF, stack3 in E. cbn [car RA] in *. destruct (Z.ltb_spec (n + k) n); [lia|].
  destruct (Z.ltb_spec (n + k) (n + p)); [|lia]. replace (n + k - n) with k in E by lia.
  rewrite ryF_R in E. exact E.
Qed.

Lemma newton_z i : 0 <= i < m ->
  (Sum n (fun c => dG Q i c * dX c) + dS i + pertF (n + p + i)%Z * dZ i)%R = res_in Q X Sv i.
Proof.
  intros Hi. pose proof (di_n _ HD). pose proof (di_p _ HD).
  pose proof (newton_row (n + p + i) ltac:(unfold pN; cbn [car RA] in *; lia)) as E. destruct (Z.ltb_spec (n + p + i) n); [lia|].
  destruct (Z.ltb_spec (n + p + i) (n + p)); [lia|]. unfold rhsF, stack3 in E. cbn [car RA] in *. destruct (Z.ltb_spec (n + p + i) n); [lia|].
  destruct (Z.ltb_spec (n + p + i) (n + p)); [lia|]. replace (n + p + i - n - p) with i in E by lia.
  change (dirU RA B pt ds (n + p + i)) with (dZ i) in E.
  unfold rhs3 in E. cbn [RA fsub] in E. rewrite rzF_R in E. pose proof (Zpos i Hi) as Hz.
  rewrite dv_R in E by (cbn [car RA] in *; lra).
  assert (ES : (dS i = (ds i - Sv i * dZ i) / Zv i)%R).
  { unfold dirS, recF. rewrite dv_R by (cbn [car RA] in *; lra). reflexivity. }
  rewrite ES. change (fun c => (dG Q i c * dX c)%R) with (fun c => (ent (pG B c) i * dX c)%R).
  cbn [car RA] in *. apply (Rplus_eq_reg_r (- (ds i / Zv i))).
  replace (res_in Q X Sv i + - (ds i / Zv i))%R with (res_in Q X Sv i - ds i / Zv i)%R by lra. rewrite <- E.
  unfold Rdiv. ring.
Qed.

(** Residuals after a step of lengths ap (x, s) and ad (y, z). *)
Variables ap ad : R.
Notation X' := (fun i => X i + ap * dX i)%R.
Notation Y' := (fun i => Y i + ad * dY i)%R.
Notation Z' := (fun i => Zv i + ad * dZ i)%R.
Notation S' := (fun i => Sv i + ap * dS i)%R.

Lemma step_res_eq k : 0 <= k < p ->
  (res_eq Q X' k = (1 - ap) * res_eq Q X k + ap * (pertF (n + k)%Z * dY k))%R.
Proof.
  intros Hk. pose proof (newton_y k Hk) as E.
  assert (E2 : (res_eq Q X' k = res_eq Q X k - ap * Sum n (fun c => dA Q k c * dX c))%R).
  { unfold res_eq at 1 2. change (dn Q) with n.
    rewrite (Sum_ext n _ (fun j => dA Q k j * X j + ap * (dA Q k j * dX j))%R) by (intros; cbn [car RA] in *; ring).
    rewrite Sum_plus, Sum_scal. lra. }
  rewrite E2, <- E. ring.
Qed.

Lemma step_res_in i : 0 <= i < m ->
  (res_in Q X' S' i = (1 - ap) * res_in Q X Sv i + ap * (pertF (n + p + i)%Z * dZ i))%R.
Proof.
  intros Hi. pose proof (newton_z i Hi) as E.
  assert (E2 : (res_in Q X' S' i = res_in Q X Sv i - ap * (Sum n (fun c => dG Q i c * dX c) + dS i))%R).
  { unfold res_in at 1 2. change (dn Q) with n.
    rewrite (Sum_ext n _ (fun j => dG Q i j * X j + ap * (dG Q i j * dX j))%R) by (intros; cbn [car RA] in *; ring).
    rewrite Sum_plus, Sum_scal. cbn [car RA] in *. lra. }
  rewrite E2, <- E. ring.
Qed.

Lemma step_res_dual j : 0 <= j < n ->
  (res_dual Q X' Y' Z' j = (1 - ad) * res_dual Q X Y Zv j + (ad - ap) * Sum n (fun c => dP Q j c * dX c)
                           + ad * (pertF j * dX j))%R.
Proof.
  intros Hj. pose proof (newton_x j Hj) as E.
  assert (E2 : (res_dual Q X' Y' Z' j = res_dual Q X Y Zv j - ap * Sum n (fun c => dP Q j c * dX c)
      - ad * (Sum p (fun k => dA Q k j * dY k) + Sum m (fun i => dG Q i j * dZ i)))%R).
  { unfold res_dual at 1 2. change (dn Q) with n. change (dm Q) with m. change (dp Q) with p.
    rewrite (Sum_ext n _ (fun k => dP Q j k * X k + ap * (dP Q j k * dX k))%R) by (intros; cbn [car RA] in *; ring).
    rewrite (Sum_ext m _ (fun i => dG Q i j * Zv i + ad * (dG Q i j * dZ i))%R) by (intros; cbn [car RA] in *; ring).
    rewrite (Sum_ext p _ (fun i => dA Q i j * Y i + ad * (dA Q i j * dY i))%R) by (intros; cbn [car RA] in *; ring).
    rewrite !Sum_plus, !Sum_scal. cbn [car RA] in *. lra. }
  rewrite E2, <- E. ring.
Qed.

End Dir.

(** Complementarity right-hand sides. *)
Lemma lamF_sq i : 0 <= i < m -> (lamF RA pt i * lamF RA pt i = Sv i * Zv i)%R.
Proof.
  intros Hi. pose proof (Zpos i Hi). pose proof (Spos i Hi).
  assert (H1 : (0 <= Sv i * Zv i)%R) by (apply Rlt_le, Rmult_lt_0_compat; auto).
  unfold lamF. change (fmul RA (Sv i) (Zv i)) with (Sv i * Zv i)%R. rewrite sq_R by exact H1. apply sqrt_sqrt. auto.
Qed.

Lemma muF_R : muF RA B pt = gap Q Sv Zv.
Proof.
  unfold muF, gap. cbn [qp_of dm]. rewrite dv_R by (cbn; apply not_0_IZR; pose proof (di_m _ HD); lia).
  rewrite dotF_R. cbn [RA fofZ]. f_equal. apply Sum_ext. intros i Hi. apply lamF_sq. auto.
Qed.

Lemma ds1_R i : 0 <= i < m -> (ds1 RA pt i = - (Sv i * Zv i))%R.
Proof. intros Hi. unfold ds1, dsF_newton. cbn [RA fmul fopp]. rewrite <- lamF_sq by auto. cbn [car RA] in *. ring. Qed.

Lemma dsFin_R sg i : 0 <= i < m ->
  (dsFin RA B pt sg i = - (Sv i * Zv i) +
     if Rlt_dec (psd B) sg then sig1 RA B pt * gap Q Sv Zv - dirS RA B pt (ds1 RA pt) i * dirZ RA B pt (ds1 RA pt) i
     else psd B * gap Q Sv Zv)%R.
Proof.
  intros Hi. unfold dsFin, predq. cbn [RA flt]. unfold Rltb. cbn [car RA]. destruct (Rlt_dec (psd B) sg).
  - unfold dsF_corr. cbn [RA fadd fsub fopp fmul]. rewrite <- lamF_sq, <- muF_R by auto. cbn [car RA] in *. ring.
  - unfold dsF_center. cbn [RA fadd fsub fopp fmul]. rewrite <- lamF_sq, <- muF_R by auto. cbn [car RA] in *. ring.
Qed.

End AtPoint.
End Newton.
