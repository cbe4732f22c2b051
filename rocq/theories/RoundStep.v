(** Rounding errors of one interior-point step in binary64: the direction, and the residuals after the step. *)
From Coq Require Import ZArith Reals List Lia Lra Bool Permutation.
From RecordUpdate Require Import RecordUpdate.
From Flocq Require Import Core BinarySingleNaN.
From Verif Require Import Res Partial Arith Lists MSparse MLdl Csc SemVec TransposeProofs KktProofs LdlSpec LdlSym LdlNum LdlSolve LdlR LdlFun
  MSolver VecOps Iter SafeInst Setup QpSpec NewtonR Round RoundLdl Spec SpecLink Api Demo P3_Ldl P14_Round P19_LdlRound.
Import ListNotations.
Open Scope Z_scope.

(** ** Factorisation and solve in the caller's numbering *)

Lemma perm_sum n Pf Qf (f : Z -> R) : isperm n Pf Qf -> sumr (fun k => f (Pf k)) (zr 0 n) = sumr f (zr 0 n).
Proof.
  intros HP. symmetry. apply (sumr_reindex f Pf (zr 0 n) (zr 0 n)). apply NoDup_Permutation.
  - assert (G : forall l, NoDup l -> (forall k, In k l -> 0 <= k < n) -> NoDup (map Pf l)).
    { induction l as [|k l IH]; intros ND HBd; simpl; [constructor|]. inversion ND; subst. constructor.
      - intros H. apply in_map_iff in H. destruct H as [k' [Ek Hk']].
        assert (k' = k); [|subst; tauto].
        rewrite <- (qf_pf _ _ _ HP k'), <- (qf_pf _ _ _ HP k), Ek by (apply HBd; simpl; auto). reflexivity.
      - apply IH; auto. intros; apply HBd; simpl; auto. }
    apply G; [apply NoDup_zr|]. intros k Hk. apply in_zr in Hk. auto.
  - apply NoDup_zr.
  - intros c. rewrite in_map_iff. split.
    + intros [k [<- Hk]]. apply in_zr in Hk. apply in_zr. apply (pf_range _ _ _ HP). auto.
    + intros Hc. apply in_zr in Hc. exists (Qf c). split; [apply (pf_qf _ _ _ HP); auto|].
      apply in_zr. apply (qf_range _ _ _ HP). auto.
Qed.

Section Caller.
Variables (n : Z) (col : cols b64) (Pf Qf par : Z -> Z).
Hypothesis Hn : 0 <= n <= 2 ^ 50.
Hypothesis HF : forest n par (brows Pf Qf col).
Hypothesis HP : isperm n Pf Qf.
Hypothesis HR : rows_in n n col.
Hypothesis HU : forall c, 0 <= c < n -> NoDup (map fst (col c)).
Variables (y Lv : Z -> Z -> b64) (Dv : Z -> b64).
Hypothesis HN : NumSpec FA n col Pf Qf par y Lv Dv.
Hypothesis FL : forall k i, 0 <= k < n -> In i (patlist n par (brows Pf Qf col k) k) -> is_finite (Lv k i) = true.
Hypothesis FD : forall k, 0 <= k < n -> is_finite (Dv k) = true.
Variable b : Z -> b64.
Notation W := (ws n col Pf Qf par Lv Dv (fun k => b (Pf k))).
Hypothesis Fw : forall k, 0 <= k < n -> is_finite (W k) = true.

Lemma BF_ent r k : 0 <= r < n -> 0 <= k < n -> BF col Pf Qf r k = entB (col (Pf k)) (Pf r).
Proof.
  intros Hr Hk. unfold BF, entB, bcol, ent. rewrite !sumr_map. apply sumr_ext. intros [a v] Ha. cbn [fst snd].
  assert (0 <= a < n) by (eapply HR; [|exact Ha]; apply (pf_range _ _ _ HP); auto).
  destruct (Z.eqb_spec (Qf a) r) as [E|E], (Z.eqb_spec a (Pf r)) as [E2|E2]; auto.
  - exfalso. apply E2. rewrite <- E. symmetry. apply (pf_qf _ _ _ HP). auto.
  - exfalso. apply E. subst a. apply (qf_pf _ _ _ HP). auto.
Qed.

Hypothesis Hs : forall i j, 0 <= i < n -> 0 <= j < n -> entB (col j) i = entB (col i) j.

(** The bound on the residual of the linear system, at position [i] of the elimination order. *)
Definition serr (i : Z) : R :=
  (IZR (3 * n + 2) * tiny (-52) * sumr (fun k => WF n col Pf Qf par Lv Dv i k * Rabs (B2R (W k))) (zr 0 n) +
   IZR (n + 1) * tiny (-1074) * (1 + RF n col Pf Qf par Lv Dv i + sumr (fun k => (1 + RF n col Pf Qf par Lv Dv i + RF n col Pf Qf par Lv Dv k) * Rabs (B2R (W k))) (zr 0 n)))%R.

Lemma serr_nonneg i : (0 <= serr i)%R.
Proof.
  assert (PR : forall k, (0 <= RF n col Pf Qf par Lv Dv k)%R) by (intros; apply sumr_nonneg; intros; repeat apply Rmult_le_pos; apply Rabs_pos).
  assert (T : forall e, (0 <= tiny e)%R) by (intros; unfold tiny; apply bpow_ge_0). pose proof (PR i) as PRi.
  unfold serr. apply Rplus_le_le_0_compat; repeat apply Rmult_le_pos; auto; try (apply IZR_le; lia).
  - apply sumr_nonneg. intros. apply Rmult_le_pos; [|apply Rabs_pos]. apply sumr_nonneg. intros. repeat apply Rmult_le_pos; apply Rabs_pos.
  - assert (0 <= sumr (fun k => (1 + RF n col Pf Qf par Lv Dv i + RF n col Pf Qf par Lv Dv k) * Rabs (B2R (W k))) (zr 0 n))%R; [|lra].
    apply sumr_nonneg. intros k _. apply Rmult_le_pos; [|apply Rabs_pos]. pose proof (PR k). lra.
Qed.

Lemma solve_bound a : 0 <= a < n -> is_finite (b a) = true /\
  (Rabs (B2R (b a) - (sumr (fun c => entB (col c) a * B2R (W (Qf c))) (zr 0 n) + EF n col Pf Qf par y Lv Dv (Qf a) * B2R (W (Qf a)))) <= serr (Qf a))%R.
Proof.
  intros Ha. set (i := Qf a). assert (Hi : 0 <= i < n) by (apply (qf_range _ _ _ HP); auto).
  assert (Ea : Pf i = a) by (apply (pf_qf _ _ _ HP); auto).
  assert (HB : forall i j, 0 <= i < n -> 0 <= j < n -> BF col Pf Qf i j = BF col Pf Qf j i).
  { intros i' j Hi' Hj. rewrite !BF_ent by auto. apply Hs; apply (pf_range _ _ _ HP); auto. }
  pose proof (total_err n col Pf Qf par HF HP HR HU y Lv Dv HN FL FD (fun k => b (Pf k)) Fw HB i Hi) as B.
  destruct (fwd_err n col Pf Qf par HF y Lv Dv HN FD (fun k => b (Pf k)) Fw i Hi) as [Fb _].
  cbv beta in B, Fb. rewrite Ea in B, Fb. split; [exact Fb|].
  rewrite <- (perm_sum n Pf Qf _ HP).
  rewrite (sumr_ext (fun k => entB (col (Pf k)) a * B2R (W (Qf (Pf k))))%R (fun k => BF col Pf Qf i k * B2R (W k))%R).
  2:{ intros k Hk. apply in_zr in Hk. rewrite BF_ent, Ea by auto. rewrite (qf_pf _ _ _ HP k Hk). reflexivity. }
  eapply Rle_trans; [exact B|]. unfold serr.
  destruct (N_bound n Hn) as [G0 [G1 [_ G2]]]. pose proof (hp_small _ G0) as S0. pose proof (hp_small _ G1) as S1. pose proof eta_pos as T.
  assert (T2 : (2 * eta = tiny (-1074))%R) by (unfold eta, tiny; change (-1074) with (1 + -1075); rewrite bpow_plus; reflexivity).
  assert (EI : (INR (Z.to_nat n) + 1 = IZR (n + 1))%R) by (rewrite plus_IZR, INR_IZR_INZ; f_equal; f_equal; lia). rewrite EI.
  assert (P1 : (0 <= sumr (fun k => WF n col Pf Qf par Lv Dv i k * Rabs (B2R (W k))) (zr 0 n))%R).
  { apply sumr_nonneg. intros. apply Rmult_le_pos; [|apply Rabs_pos]. apply sumr_nonneg. intros. repeat apply Rmult_le_pos; apply Rabs_pos. }
  assert (PR : forall k, (0 <= RF n col Pf Qf par Lv Dv k)%R) by (intros; apply sumr_nonneg; intros; repeat apply Rmult_le_pos; apply Rabs_pos).
  set (Q := sumr (fun k => (1 + RF n col Pf Qf par Lv Dv i + RF n col Pf Qf par Lv Dv k) * Rabs (B2R (W k)))%R (zr 0 n)) in *.
  assert (P2 : (0 <= Q)%R).
  { apply sumr_nonneg. intros k _. apply Rmult_le_pos; [|apply Rabs_pos]. pose proof (PR i). pose proof (PR k). lra. }
  pose proof (PR i) as PRi.
  apply Rplus_le_compat; apply Rmult_le_compat_r; try lra. rewrite <- T2.
  assert (0 <= IZR (n + 1))%R by (apply IZR_le; lia).
  replace (IZR (n + 1) * (2 * eta))%R with (2 * (eta * IZR (n + 1)))%R by ring.
  rewrite Rmult_assoc. apply Rmult_le_compat_r; [apply Rmult_le_pos; lra|]. lra.
Qed.

(** A stored diagonal entry is finite. *)
Lemma scatter_in (l : list (Z * b64)) r v : NoDup (map fst l) -> In (r, v) l -> forall acc,
  fold_left (fun acc e => if fst e =? r then fadd FA acc (snd e) else acc) l acc = fadd FA acc v.
Proof.
  induction l as [|[a w] l IH]; intros ND Hin acc; [contradiction|]. cbn [map fst] in ND. inversion ND as [|? ? N1 N2]; subst. cbn [fold_left fst snd].
  destruct Hin as [E|Hin].
  - injection E as -> ->. rewrite Z.eqb_refl.
    clear -N1. generalize (fadd FA acc v). induction l as [|[a w] l IH]; intros acc'; cbn [fold_left map fst snd] in *; auto.
    destruct (Z.eqb_spec a r); [simpl in N1; tauto|]. apply IH. simpl in N1; tauto.
  - destruct (Z.eqb_spec a r) as [->|]; [exfalso; apply N1; apply in_map_iff; exists (r, v); auto|]. apply IH; auto.
Qed.

Lemma diag_finite a v : 0 <= a < n -> In (a, v) (col a) -> is_finite v = true.
Proof.
  intros Ha Hin. set (i := Qf a). assert (Hi : 0 <= i < n) by (apply (qf_range _ _ _ HP); auto).
  assert (Ea : Pf i = a) by (apply (pf_qf _ _ _ HP); auto).
  destruct (DF_facts n col Pf Qf par y Lv Dv HN FD i Hi) as [Fp _].
  unfold pivF, dfold in Fp. rewrite foldm_all in Fp. destruct (foldm_fin _ _ Fp) as [F0 _].
  assert (E : y0 FA col Pf Qf i i = fadd FA (f0 FA) v).
  { unfold y0. apply (scatter_in (bcol Pf Qf col i) i v); [apply (bcol_nodup n); auto|].
    unfold bcol. apply in_map_iff. exists (a, v). rewrite Ea. cbn [fst snd]. auto. }
  assert (F1 : is_finite (fadd FA (f0 FA) v) = true) by (rewrite <- E; exact F0).
  apply add_fin in F1. apply F1.
Qed.
End Caller.

(** ** The matrix of the step *)

Definition mapl (l : list (Z * b64)) : list (Z * R) := map (fun e => (fst e, B2R (snd e))) l.

Lemma mapl_app l1 l2 : mapl (l1 ++ l2) = mapl l1 ++ mapl l2.
Proof. apply map_app. Qed.
Lemma mapl_shift off l : mapl (shift off l) = shift off (mapl l).
Proof. unfold mapl, shift. rewrite !map_map. reflexivity. Qed.
Lemma mapl_trow j k l : mapl (trow j k l) = trow j k (mapl l).
Proof. unfold mapl, trow. induction l as [|[r v] l IH]; [reflexivity|]. cbn [map filter fst snd]. destruct (r =? k); cbn [map fst snd]; rewrite IH; reflexivity. Qed.
Lemma mapl_tcol (col : cols b64) n k : mapl (tcol col n k) = tcol (mapc B2R col) n k.
Proof.
  unfold tcol. induction (zr 0 n) as [|j l IH]; [reflexivity|]. cbn [flat_map]. rewrite mapl_app, IH, mapl_trow. reflexivity.
Qed.
Lemma mapl_kkt n p (pc ac gc : cols b64) (d : Z -> b64) j :
  mapl (kkt_col FA n p pc ac gc d j) = kkt_col RA n p (mapc B2R pc) (mapc B2R ac) (mapc B2R gc) (fun i => B2R (d i)) j.
Proof.
  unfold kkt_col. destruct (j <? n); [rewrite !mapl_app, !mapl_shift; reflexivity|]. destruct (j <? n + p); [apply mapl_tcol|].
  rewrite <- mapl_tcol. change (car FA) with b64. change (car RA) with R. generalize (@tcol b64 gc n (j - n - p)). intros [|e l]; [reflexivity|].
  rewrite mapl_app. reflexivity.
Qed.
Lemma mapl_fst l : map fst (mapl l) = map fst l.
Proof. unfold mapl. rewrite map_map. reflexivity. Qed.

Lemma NoDup_app {T} (l1 l2 : list T) : NoDup l1 -> NoDup l2 -> (forall x, In x l1 -> In x l2 -> False) -> NoDup (l1 ++ l2).
Proof.
  induction l1 as [|a l IH]; intros H1 H2 H3; [exact H2|]. inversion H1; subst. cbn. constructor.
  - rewrite in_app_iff. intros [H|H]; [auto|]. apply (H3 a); simpl; auto.
  - apply IH; auto. intros x Hx. apply H3. simpl; auto.
Qed.

Lemma shift_nodup off (l : list (Z * b64)) : NoDup (map fst l) -> NoDup (map fst (shift off l)).
Proof.
  unfold shift. rewrite map_map. cbn [fst]. intros H. rewrite <- (map_map fst (fun z => off + z)). apply FinFun.Injective_map_NoDup; auto.
  intros a b E. lia.
Qed.

Lemma trow_nodup j k (l : list (Z * b64)) : NoDup (map fst l) -> trow j k l = [] \/ exists v, trow j k l = [(j, v)].
Proof.
  intros H. assert (G : ~ In k (map fst l) -> trow j k l = []).
  { clear H. unfold trow. induction l as [|[r v] l IH]; intros H; [reflexivity|]. cbn [filter fst map] in *.
    destruct (Z.eqb_spec r k); [exfalso; apply H; simpl; auto|]. apply IH. simpl in H. tauto. }
  unfold trow in *. induction l as [|[r v] l IH]; [left; reflexivity|]. cbn [map fst] in *. inversion H as [|? ? N1 N2]; subst. cbn [filter fst].
  destruct (Z.eqb_spec r k) as [->|Hne].
  - right. exists v. cbn [map fst snd]. f_equal. clear -N1.
    induction l as [|[r v'] l IH]; [reflexivity|]. cbn [filter fst map] in *. destruct (Z.eqb_spec r k); [exfalso; apply N1; simpl; auto|]. apply IH. simpl in N1. tauto.
  - apply IH; auto. intros Hk. specialize (G ltac:(simpl; intros [?|?]; auto)). cbn [filter fst] in G. destruct (Z.eqb_spec r k); [congruence|]. exact G.
Qed.

Lemma tcol_nodup (col : cols b64) n k : (forall j, 0 <= j < n -> NoDup (map fst (col j))) -> NoDup (map fst (tcol col n k)).
Proof.
  intros H. unfold tcol.
  assert (G : forall l, NoDup l -> (forall j, In j l -> NoDup (map fst (col j))) -> NoDup (map fst (flat_map (fun j => trow j k (col j)) l)) /\
     forall x, In x (map fst (flat_map (fun j => trow j k (col j)) l)) -> In x l).
  { induction l as [|j l IH]; intros ND HU; [split; [constructor|intros x []]|]. inversion ND as [|? ? N1 N2]; subst.
    destruct (IH N2 (fun j' Hj => HU j' (or_intror Hj))) as [I1 I2]. cbn [flat_map]. rewrite map_app.
    destruct (trow_nodup j k (col j) (HU j (or_introl eq_refl))) as [E|[v E]]; rewrite E; cbn [map app fst].
    - split; [exact I1|]. intros x Hx. right. auto.
    - split; [constructor; auto|]. intros x [<-|Hx]; [left; reflexivity|right; auto]. }
  apply G; [apply NoDup_zr|]. intros j Hj. apply in_zr in Hj. auto.
Qed.

Section Matrix.
Variable B : prob b64.
Variable pt : point FA.
Notation n := (pn B).
Notation m := (pm B).
Notation p := (pp B).
Notation N := (pN B).
Hypothesis Hn : 0 <= n.
Hypothesis Hm : 1 <= m.
Hypothesis Hp : 0 <= p.
Hypothesis HP : rows_in n n (pP B).
Hypothesis HG : rows_in m n (pG B).
Hypothesis HA : rows_in p n (pA B).
Hypothesis UP : forall j, 0 <= j < n -> NoDup (map fst (pP B j)).
Hypothesis UG : forall j, 0 <= j < n -> NoDup (map fst (pG B j)).
Hypothesis UA : forall j, 0 <= j < n -> NoDup (map fst (pA B j)).
Hypothesis EK : pK B = kkt_col FA n p (pP B) (pA B) (pG B) (minus_one FA).
Hypothesis Hrow : forall i, 0 <= i < m -> tcol (pG B) n i <> [].
Notation Q := (qp_of (mapB B2R B)).
Hypothesis Hsym : symmetric Q.
Notation K := (KF FA B pt).
Notation wt := (scalF FA (ptS FA pt) (ptZ FA pt)).

Lemma KF_col j : 0 <= j < N -> K j = kkt_col FA n p (pP B) (pA B) (pG B) wt j.
Proof.
  intros Hj. unfold KF, K0. change (@pK (car FA) B) with (@pK b64 B). rewrite EK. unfold pN in Hj.
  apply (ovl_kkt_col FA n m p); auto; lia.
Qed.

Lemma KF_range : rows_in N N K.
Proof.
  intros j r v Hj Hin. rewrite KF_col in Hin by auto. eapply (kkt_col_rows FA n m p); [lia|lia|lia|exact HP|exact HA|exact HG|exact Hj|exact Hin].
Qed.

Lemma KF_nodup c : 0 <= c < N -> NoDup (map fst (K c)).
Proof.
  intros Hc. rewrite KF_col by auto. unfold kkt_col. unfold pN in Hc.
  assert (IS : forall off (l : list (Z * b64)) x, In x (map fst (shift off l)) -> exists r v, In (r, v) l /\ x = off + r).
  { intros off l x Hx. apply in_map_iff in Hx. destruct Hx as [[a v] [<- Hx]]. unfold shift in Hx. apply in_map_iff in Hx. destruct Hx as [[r w] [E Hx]].
    injection E as <- <-. exists r, w. auto. }
  destruct (Z.ltb_spec c n) as [L|L].
  - rewrite !map_app. apply NoDup_app; [apply UP; lia| |].
    + apply NoDup_app; [apply shift_nodup, UA; lia|apply shift_nodup, UG; lia|].
      intros x H1 H2. apply IS in H1, H2. destruct H1 as [r1 [v1 [I1 ->]]], H2 as [r2 [v2 [I2 E]]].
      pose proof (HA c r1 v1 ltac:(lia) I1). pose proof (HG c r2 v2 ltac:(lia) I2). lia.
    + intros x H1 H2. apply in_map_iff in H1. destruct H1 as [[r v] [<- I1]]. pose proof (HP c r v ltac:(lia) I1). cbn [fst] in *.
      apply in_app_iff in H2. destruct H2 as [H2|H2]; apply IS in H2; destruct H2 as [r2 [v2 [I2 E]]].
      * pose proof (HA c r2 v2 ltac:(lia) I2). lia.
      * pose proof (HG c r2 v2 ltac:(lia) I2). lia.
  - destruct (Z.ltb_spec c (n + p)); [apply tcol_nodup; exact UA|].
    pose proof (tcol_nodup (pG B) n (c - n - p) UG) as T. change (car FA) with b64.
    destruct (tcol (pG B) n (c - n - p)) as [|e l] eqn:E; [constructor|]. rewrite <- E in *. rewrite map_app. apply NoDup_app; [exact T|repeat constructor; intros []|].
    intros x H1 [<-|[]]. apply in_map_iff in H1. destruct H1 as [[r v] [Er I]]. cbn [fst] in Er. subst r. apply in_tcol in I. lia.
Qed.

Lemma KF_ent c a : 0 <= c < N -> entB (K c) a = ent (kkt_col RA n p (mapc B2R (pP B)) (mapc B2R (pA B)) (mapc B2R (pG B)) (fun i => B2R (wt i)) c) a.
Proof. intros Hc. rewrite KF_col by auto. unfold entB. rewrite <- mapl_kkt. reflexivity. Qed.

Lemma rows_mapc M (col : cols b64) : rows_in M n col -> rows_in M n (mapc B2R col).
Proof. intros H j r v Hj Hin. unfold mapc in Hin. apply in_map_iff in Hin. destruct Hin as [[a w] [E Hin]]. injection E as <- <-. eapply H; eauto. Qed.

Lemma Hrow_R i : 0 <= i < m -> tcol (mapc B2R (pG B)) n i <> [].
Proof.
  intros Hi E. rewrite <- mapl_tcol in E. apply (Hrow i Hi). destruct (tcol (pG B) n i); [reflexivity|discriminate E].
Qed.

Lemma KF_symm i j : 0 <= i < N -> 0 <= j < N -> entB (K j) i = entB (K i) j.
Proof.
  intros Hi Hj. rewrite !KF_ent by auto. unfold pN in *.
  apply (kkt_sym n m p); auto; try lia; try (apply rows_mapc; assumption); try exact Hrow_R; try (intros i' j' Hi' Hj'; apply (Hsym i' j'); auto).
Qed.

Lemma KF_row (u : Z -> R) a : 0 <= a < N -> sumr (fun c => entB (K c) a * u c)%R (zr 0 N) =
  (if a <? n then
     Sum n (fun c => dP Q a c * u c) + Sum p (fun k => dA Q k a * u (n + k)%Z) + Sum m (fun i => dG Q i a * u (n + p + i)%Z)
   else if a <? n + p then Sum n (fun c => dA Q (a - n) c * u c)
   else Sum n (fun c => dG Q (a - n - p) c * u c) + B2R (wt (a - n - p)) * u a)%R.
Proof.
  intros Ha. rewrite (sumr_ext _ (fun c => ent (kkt_col RA n p (mapc B2R (pP B)) (mapc B2R (pA B)) (mapc B2R (pG B)) (fun i => B2R (wt i)) c) a * u c)%R)
    by (intros c Hc; apply in_zr in Hc; rewrite KF_ent by auto; reflexivity).
  unfold pN in *. rewrite <- (kkt_row n m p (mapc B2R (pP B)) (mapc B2R (pA B)) (mapc B2R (pG B)) (fun i => B2R (wt i))); auto; try lia;
    try (apply rows_mapc; assumption). exact Hrow_R.
Qed.

Lemma KF_diag i : 0 <= i < m -> In (n + p + i, wt i) (K (n + p + i)).
Proof.
  intros Hi. rewrite KF_col by (unfold pN; lia). unfold kkt_col. destruct (Z.ltb_spec (n + p + i) n); [lia|]. destruct (Z.ltb_spec (n + p + i) (n + p)); [lia|].
  replace (n + p + i - n - p) with i by lia. pose proof (Hrow i Hi) as Hne. change (car FA) with b64. destruct (tcol (pG B) n i) as [|e l]; [congruence|].
  apply in_or_app. right. left. reflexivity.
Qed.
End Matrix.

(** ** Single operations of the step *)

Lemma tiny51 : tiny (-51) = (4 * uu)%R.
Proof. unfold uu, tiny. change (-51) with (2 + -53). rewrite bpow_plus. reflexivity. Qed.
Lemma tiny50 : tiny (-50) = (8 * uu)%R.
Proof. unfold uu, tiny. change (-50) with (3 + -53). rewrite bpow_plus. reflexivity. Qed.
Lemma tiny1074 : tiny (-1074) = (2 * eta)%R.
Proof. unfold eta, tiny. change (-1074) with (1 + -1075). rewrite bpow_plus. reflexivity. Qed.

Section Small.
Open Scope R_scope.

Lemma mul_le a b x y : Rabs a <= x -> Rabs b <= y -> Rabs (a * b) <= x * y.
Proof. intros H1 H2. rewrite Rabs_mult. pose proof (Rabs_pos a). pose proof (Rabs_pos b). apply Rmult_le_compat; lra. Qed.
Lemma add_le a b x y : Rabs a <= x -> Rabs b <= y -> Rabs (a + b) <= x + y.
Proof. intros H1 H2. pose proof (Rabs_triang a b). lra. Qed.
Lemma opp_le a x : Rabs a <= x -> Rabs (- a) <= x.
Proof. rewrite Rabs_Ropp. auto. Qed.

Lemma two_errs e f : Rabs e <= uu -> Rabs f <= uu -> Rabs ((1 + e) * (1 + f) - 1) <= 9 / 4 * uu.
Proof.
  intros H1 H2. pose proof uu_pos. pose proof uu_small. replace ((1 + e) * (1 + f) - 1) with (e + f + e * f) by ring.
  pose proof (add_le _ _ _ _ (add_le _ _ _ _ H1 H2) (mul_le _ _ _ _ H1 H2)). assert (uu * uu <= / 4 * uu) by (apply Rmult_le_compat_r; lra). lra.
Qed.
Lemma three_errs e f : Rabs e <= uu -> Rabs f <= 9 / 4 * uu -> Rabs ((1 + e) * (1 + f) - 1) <= 61 / 16 * uu.
Proof.
  intros H1 H2. pose proof uu_pos. pose proof uu_small. replace ((1 + e) * (1 + f) - 1) with (e + f + e * f) by ring.
  pose proof (add_le _ _ _ _ (add_le _ _ _ _ H1 H2) (mul_le _ _ _ _ H1 H2)). assert (uu * uu <= / 4 * uu) by (apply Rmult_le_compat_r; lra). lra.
Qed.

(** x + dx alpha *)
Lemma axpy_err (x d a : b64) : is_finite (fadd FA x (fmul FA d a)) = true ->
  is_finite x = true /\ Rabs (B2R (fadd FA x (fmul FA d a)) - (B2R x + B2R a * B2R d)) <= tiny (-53) * Rabs (B2R x) + tiny (-51) * Rabs (B2R a * B2R d) + tiny (-1074).
Proof.
  intros F. destruct (add_fin _ _ F) as [Fx Fm]. split; [exact Fx|]. destruct (add_val _ _ F) as [e [He ->]]. destruct (mul_val _ _ Fm) as [e1 [n1 [He1 [Hn1 ->]]]].
  rewrite tiny51, tiny1074. change (tiny (-53)) with uu. pose proof uu_pos as U0. pose proof uu_small as U1. pose proof eta_pos as T0.
  set (xr := B2R x). set (t := B2R a * B2R d).
  replace ((xr + (B2R d * B2R a * (1 + e1) + n1)) * (1 + e) - (xr + t)) with (e * xr + ((1 + e1) * (1 + e) - 1) * t + n1 * (1 + e)) by (unfold t; ring).
  assert (H1 : Rabs (1 + e) <= 2) by (apply Rabs_le_inv in He; apply Rabs_le; lra).
  pose proof (add_le _ _ _ _ (add_le _ _ _ _ (mul_le _ _ _ _ He (Rle_refl (Rabs xr))) (mul_le _ _ _ _ (two_errs _ _ He1 He) (Rle_refl (Rabs t)))) (mul_le _ _ _ _ Hn1 H1)) as X.
  assert (9 / 4 * uu * Rabs t <= 4 * uu * Rabs t) by (apply Rmult_le_compat_r; [apply Rabs_pos|lra]). lra.
Qed.

(** Division by zero is not finite. *)
Lemma div_nonzero (x z : b64) : is_finite (b64_div x z) = true -> is_finite z = true -> is_finite x = true -> B2R z <> 0.
Proof.
  intros F Fz Fx E. destruct z as [sz|sz| |sz mz ez Hz]; try discriminate Fz.
  - destruct x as [sx|sx| |sx mx ex Hx]; try discriminate Fx; discriminate F.
  - cbn in E. apply (F2R_neq_0 radix2) in E; [exact E|]. cbn. destruct sz; discriminate.
Qed.

Section Row.
Variables (s z ds dz : b64).
Notation w := (b64_div (fopp FA s) z).
Notation c := (b64_div (fsub FA ds (fmul FA s dz)) z).
Hypothesis Fc : is_finite c = true.
Hypothesis Fz : is_finite z = true.
Hypothesis Nz : B2R z <> 0.

Lemma rec_val : exists e4 f n4 n6, Rabs e4 <= uu /\ Rabs f <= 9 / 4 * uu /\ Rabs n4 <= eta /\ Rabs n6 <= eta /\
  B2R c = (B2R ds - B2R s * B2R dz * (1 + e4) - n4) / B2R z * (1 + f) + n6.
Proof.
  destruct (div_val _ _ Fc Fz Nz) as [F1 [e6 [n6 [He6 [Hn6 E]]]]]. destruct (sub_fin _ _ F1) as [_ F2]. destruct (sub_val _ _ F1) as [e5 [He5 E5]].
  destruct (mul_val _ _ F2) as [e4 [n4 [He4 [Hn4 E4]]]]. exists e4, ((1 + e5) * (1 + e6) - 1), n4, n6.
  split; [exact He4|]. split; [apply two_errs; auto|]. split; [exact Hn4|]. split; [exact Hn6|]. rewrite E, E5, E4. field. exact Nz.
Qed.

Lemma comp_err : Rabs (B2R z * B2R c + B2R s * B2R dz - B2R ds) <= tiny (-51) * (Rabs (B2R ds) + Rabs (B2R s * B2R dz)) + tiny (-1074) * (1 + Rabs (B2R z)).
Proof.
  destruct rec_val as [e4 [f [n4 [n6 [He4 [Hf [Hn4 [Hn6 ->]]]]]]]]. rewrite tiny51, tiny1074. pose proof uu_pos as U0. pose proof uu_small as U1. pose proof eta_pos as T0.
  set (t := B2R s * B2R dz). set (d := B2R ds).
  replace (B2R z * ((d - t * (1 + e4) - n4) / B2R z * (1 + f) + n6) + t - d) with (f * d + - (((1 + e4) * (1 + f) - 1) * t) + - (n4 * (1 + f)) + n6 * B2R z) by (field; exact Nz).
  assert (H1 : Rabs (1 + f) <= 2) by (apply Rabs_le_inv in Hf; apply Rabs_le; lra).
  pose proof (add_le _ _ _ _ (add_le _ _ _ _ (add_le _ _ _ _ (mul_le _ _ _ _ Hf (Rle_refl (Rabs d))) (opp_le _ _ (mul_le _ _ _ _ (three_errs _ _ He4 Hf) (Rle_refl (Rabs t)))))
    (opp_le _ _ (mul_le _ _ _ _ Hn4 H1))) (mul_le _ _ _ _ Hn6 (Rle_refl (Rabs (B2R z))))) as X.
  pose proof (Rabs_pos d). pose proof (Rabs_pos t). pose proof (Rabs_pos (B2R z)).
  assert (9 / 4 * uu * Rabs d <= 4 * uu * Rabs d) by (apply Rmult_le_compat_r; lra).
  assert (61 / 16 * uu * Rabs t <= 4 * uu * Rabs t) by (apply Rmult_le_compat_r; lra).
  assert (eta * Rabs (B2R z) <= 2 * eta * Rabs (B2R z)) by (apply Rmult_le_compat_r; lra). lra.
Qed.

Variables (r : b64) (res S E sg W : R) (k : nat).
Hypothesis Fw : is_finite w = true.
Notation rhs := (fsub FA r (b64_div ds z)).
Hypothesis Fr : is_finite rhs = true.
Hypothesis HW : Rabs res <= W.
Hypothesis Hk : (1 <= k)%nat.
Hypothesis Hr : Rabs (B2R r - res) <= gamma k * W + 3 / 2 * (INR k * eta).
Hypothesis Hlin : Rabs (B2R rhs - (S + B2R w * B2R dz + E * B2R dz)) <= sg.

Lemma ineq_err : Rabs (S + B2R c + E * B2R dz - res) <=
  sg + 2 * (gamma k * W) + tiny (-50) * (Rabs (B2R ds / B2R z) + Rabs (B2R s * B2R dz / B2R z)) + tiny (-1074) * (INR k + 3 + Rabs (B2R dz) + / Rabs (B2R z)).
Proof.
  destruct rec_val as [e4 [f [n4 [n6 [He4 [Hf [Hn4 [Hn6 Ec]]]]]]]].
  destruct (div_val _ _ Fw Fz Nz) as [_ [e3 [n3 [He3 [Hn3 Ew]]]]]. 
  assert (Eo : B2R (fopp FA s) = - B2R s) by (cbn [fopp FA]; apply B2R_Bopp). rewrite Eo in Ew.
  destruct (sub_fin _ _ Fr) as [_ Fq]. destruct (sub_val _ _ Fr) as [e [He Er]]. destruct (div_val _ _ Fq Fz Nz) as [_ [e2 [n2 [He2 [Hn2 Eq]]]]].
  rewrite tiny50, tiny1074. pose proof uu_pos as U0. pose proof uu_small as U1. pose proof eta_pos as T0.
  set (q := B2R ds / B2R z) in *. set (t := B2R s * B2R dz / B2R z) in *. set (dzr := B2R dz) in *.
  assert (Ec' : B2R c = (q - t * (1 + e4) - n4 * / B2R z) * (1 + f) + n6) by (rewrite Ec; unfold q, t; field; exact Nz).
  assert (Ew' : B2R w * dzr = - t * (1 + e3) + n3 * dzr) by (rewrite Ew; unfold t, dzr; field; exact Nz).
  rewrite Er, Eq in Hlin.
  set (rr := B2R r) in *.
  replace (S + B2R c + E * dzr - res) with (- ((rr - (q * (1 + e2) + n2)) * (1 + e) - (S + B2R w * dzr + E * dzr))
    + (((rr - res) * (1 + e) + e * res + - (((1 + e2) * (1 + e) - 1) * q) + - (n2 * (1 + e)))
    + (f * q + - ((((1 + e4) * (1 + f) - 1) + - e3) * t) + - (n4 * (/ B2R z * (1 + f))) + n6 + - (n3 * dzr))))
    by (rewrite Ec', Ew'; ring).
  assert (H1 : Rabs (1 + e) <= 5 / 4) by (apply Rabs_le_inv in He; apply Rabs_le; lra).
  assert (H2 : Rabs (1 + f) <= 2) by (apply Rabs_le_inv in Hf; apply Rabs_le; lra).
  assert (Hz : Rabs (/ B2R z) <= / Rabs (B2R z)) by (rewrite Rabs_inv; lra).
  assert (X1 : Rabs ((rr - res) * (1 + e) + e * res + - (((1 + e2) * (1 + e) - 1) * q) + - (n2 * (1 + e))) <=
    (gamma k * W + 3 / 2 * (INR k * eta)) * (5 / 4) + uu * W + 9 / 4 * uu * Rabs q + eta * (5 / 4)).
  { apply add_le; [apply add_le; [apply add_le|]|]; try apply opp_le; apply mul_le; auto; try lra. apply two_errs; auto. }
  assert (X2 : Rabs (f * q + - ((((1 + e4) * (1 + f) - 1) + - e3) * t) + - (n4 * (/ B2R z * (1 + f))) + n6 + - (n3 * dzr)) <=
    9 / 4 * uu * Rabs q + (61 / 16 * uu + uu) * Rabs t + eta * (/ Rabs (B2R z) * 2) + eta + eta * Rabs dzr).
  { apply add_le; [apply add_le; [apply add_le; [apply add_le|]|]|]; try apply opp_le; auto; apply mul_le; auto; try lra.
    - apply add_le; [apply three_errs; auto|apply opp_le; auto].
    - apply mul_le; auto. }
  pose proof (add_le _ _ _ _ (opp_le _ _ Hlin) (add_le _ _ _ _ X1 X2)) as X. clear X1 X2.
  pose proof (Rabs_pos q). pose proof (Rabs_pos t). pose proof (Rabs_pos dzr). pose proof (Rabs_pos res).
  assert (Hi : 0 <= / Rabs (B2R z)) by (left; apply Rinv_0_lt_compat, Rabs_pos_lt; exact Nz).
  assert (uu * Rabs q >= 0) by (apply Rle_ge, Rmult_le_pos; lra). assert (uu * Rabs t >= 0) by (apply Rle_ge, Rmult_le_pos; lra).
  assert (Ik : 1 <= INR k) by (apply (le_INR 1); exact Hk).
  assert (Gk : 2 * uu * W <= gamma k * W).
  { apply Rmult_le_compat_r; [lra|]. unfold gamma. assert (2 * uu * 1 <= 2 * uu * INR k) by (apply Rmult_le_compat_l; lra). lra. }
  assert (0 <= INR k * eta) by (apply Rmult_le_pos; lra). assert (0 <= eta * Rabs dzr) by (apply Rmult_le_pos; lra).
  assert (0 <= uu * W) by (apply Rmult_le_pos; lra).
  assert (0 <= eta * / Rabs (B2R z)) by (apply Rmult_le_pos; lra).
  eapply Rle_trans; [exact X|]. lra.
Qed.
End Row.
End Small.

(** ** The direction *)

Section Direction.
Variable B : prob b64.
Variable pt : point FA.
Notation n := (pn B).
Notation m := (pm B).
Notation p := (pp B).
Notation N := (pN B).
Hypothesis Hn : 0 <= n.
Hypothesis Hm : 1 <= m.
Hypothesis Hp : 0 <= p.
Hypothesis HN : N <= 2 ^ 50.
Hypothesis HP : rows_in n n (pP B).
Hypothesis HG : rows_in m n (pG B).
Hypothesis HA : rows_in p n (pA B).
Hypothesis UP : forall j, 0 <= j < n -> NoDup (map fst (pP B j)).
Hypothesis UG : forall j, 0 <= j < n -> NoDup (map fst (pG B j)).
Hypothesis UA : forall j, 0 <= j < n -> NoDup (map fst (pA B j)).
Hypothesis EK : pK B = kkt_col FA n p (pP B) (pA B) (pG B) (minus_one FA).
Hypothesis Hrow : forall i, 0 <= i < m -> tcol (pG B) n i <> [].
Notation Q := (qp_of (mapB B2R B)).
Notation Qa := (qp_of (mapB absB B)).
Hypothesis Hsym : symmetric Q.
Notation M := (KF FA B pt).
Notation Pf := (pPf B).
Notation Qf := (pQf B).
Notation par := (ppar B).
Hypothesis HF : forest N par (brows Pf Qf M).
Hypothesis HPm : isperm N Pf Qf.
Notation Yv := (fac_y FA (numF FA N M Pf Qf par N)).
Notation Lv := (fac_L FA (numF FA N M Pf Qf par N)).
Notation Dv := (fac_D FA (numF FA N M Pf Qf par N)).
Hypothesis FL : forall k i, 0 <= k < N -> In i (patlist N par (brows Pf Qf M k) k) -> is_finite (Lv k i) = true.
Hypothesis FD : forall k, 0 <= k < N -> is_finite (Dv k) = true.
Variable K : nat.
Hypothesis HK : start (pP B) n + start (pG B) n + start (pA B) n + n + m + p + 4 <= Z.of_nat K.
Hypothesis Hg : (gamma K <= 1 / 2)%R.
Variable ds : Z -> b64.
Notation dx := (dirX FA B pt ds).
Notation dy := (dirY FA B pt ds).
Notation dz := (dirZ FA B pt ds).
Notation dS := (dirS FA B pt ds).
Hypothesis Fdx : forall i, 0 <= i < n -> is_finite (dx i) = true.
Hypothesis Fdy : forall i, 0 <= i < p -> is_finite (dy i) = true.
Hypothesis Fdz : forall i, 0 <= i < m -> is_finite (dz i) = true.
Hypothesis FdS : forall i, 0 <= i < m -> is_finite (dS i) = true.
Hypothesis Fz : forall i, 0 <= i < m -> is_finite (ptZ FA pt i) = true.
Notation x := (fun i => B2R (ptX FA pt i)).
Notation y := (fun i => B2R (ptY FA pt i)).
Notation z := (fun i => B2R (ptZ FA pt i)).
Notation s := (fun i => B2R (ptS FA pt i)).

Definition Ed (a : Z) : R := EF N M Pf Qf par Yv Lv Dv (Qf a).
Definition Se (a : Z) : R := serr N M Pf Qf par Lv Dv (rhsF FA B pt ds) (Qf a).

Lemma HNum : NumSpec FA N M Pf Qf par Yv Lv Dv.
Proof. exact (numF_spec FA N M Pf Qf par HF div_ok_F). Qed.

Lemma dirU_ws a : dirU FA B pt ds a = ws N M Pf Qf par Lv Dv (fun k => rhsF FA B pt ds (Pf k)) (Qf a).
Proof. reflexivity. Qed.

Lemma FU a : 0 <= a < N -> is_finite (dirU FA B pt ds a) = true.
Proof.
  intros Ha. unfold pN in Ha. destruct (Z.lt_ge_cases a n); [specialize (Fdx a ltac:(lia)); unfold dirX in Fdx; rewrite Z.add_0_l in Fdx; exact Fdx|].
  destruct (Z.lt_ge_cases a (n + p)).
  - specialize (Fdy (a - n) ltac:(lia)). unfold dirY in Fdy. change (@pn (car FA) B) with (@pn b64 B) in Fdy. replace (n + (a - n)) with a in Fdy by lia. exact Fdy.
  - specialize (Fdz (a - n - p) ltac:(lia)). unfold dirZ in Fdz. change (@pn (car FA) B) with (@pn b64 B) in Fdz. change (@pp (car FA) B) with (@pp b64 B) in Fdz.
    replace (n + p + (a - n - p)) with a in Fdz by lia. exact Fdz.
Qed.

Lemma N0 : 0 <= N <= 2 ^ 50.
Proof. unfold pN in *. lia. Qed.

Lemma dir_bound a : 0 <= a < N -> is_finite (rhsF FA B pt ds a) = true /\
  (Rabs (B2R (rhsF FA B pt ds a) - (sumr (fun c => entB (M c) a * B2R (dirU FA B pt ds c)) (zr 0 N) + Ed a * B2R (dirU FA B pt ds a))) <= Se a)%R.
Proof.
  intros Ha. apply (solve_bound N M Pf Qf par N0 HF HPm).
  - apply (KF_range B pt); auto.
  - apply (KF_nodup B pt); auto.
  - exact HNum.
  - exact FL.
  - exact FD.
  - intros k Hk. pose proof (FU (Pf k) (pf_range _ _ _ HPm k Hk)) as F. rewrite dirU_ws, (qf_pf _ _ _ HPm k Hk) in F. exact F.
  - intros i j Hi Hj. apply (KF_symm B pt); auto.
  - exact Ha.
Qed.

Lemma Se_nonneg a : (0 <= Se a)%R.
Proof. apply serr_nonneg. apply N0. Qed.

(** The weight on the diagonal is finite, hence z is not zero. *)
Lemma w_fin i : 0 <= i < m -> is_finite (b64_div (fopp FA (ptS FA pt i)) (ptZ FA pt i)) = true /\ B2R (ptZ FA pt i) <> 0%R.
Proof.
  intros Hi. assert (Hc : 0 <= n + p + i < N) by (unfold pN; lia).
  assert (F : is_finite (b64_div (fopp FA (ptS FA pt i)) (ptZ FA pt i)) = true).
  { apply (diag_finite N M Pf Qf par HPm (KF_range B pt Hn Hm Hp HP HG HA EK Hrow) (KF_nodup B pt Hn Hm Hp HP HG HA UP UG UA EK Hrow) Yv Lv Dv HNum FD (n + p + i)); [exact Hc|].
    apply (KF_diag B pt); auto. }
  split; [exact F|].
  specialize (FdS i Hi). unfold dirS, recF in FdS.
  assert (F1 : is_finite (b64_div (fsub FA (ds i) (fmul FA (ptS FA pt i) (dz i))) (ptZ FA pt i)) = true) by exact FdS.
  assert (Fo : is_finite (fopp FA (ptS FA pt i)) = true).
  { specialize (Fz i Hi). destruct (ptZ FA pt i) as [sz|sz| |sz mz ez Hz]; try discriminate Fz;
      destruct (ptS FA pt i) as [s0|s0| |s0 m0 e0 H0]; try reflexivity; discriminate F. }
  apply (div_nonzero _ _ F (Fz i Hi) Fo).
Qed.

Lemma K1 : (1 <= K)%nat.
Proof. pose proof (start_nonneg (pP B) n). pose proof (start_nonneg (pG B) n). pose proof (start_nonneg (pA B) n). lia. Qed.

Lemma dirX_U j : dx j = dirU FA B pt ds j.
Proof. unfold dirX. rewrite Z.add_0_l. reflexivity. Qed.

Lemma three_half : (3 / 2 * (INR K * eta) <= IZR (Z.of_nat K) * tiny (-1074))%R.
Proof. rewrite tiny1074, <- INR_IZR_INZ. pose proof eta_pos. pose proof (pos_INR K). assert (0 <= INR K * eta)%R by (apply Rmult_le_pos; lra). lra. Qed.

Lemma dir_dual j : 0 <= j < n ->
  (Rabs (Sum n (fun c => dP Q j c * B2R (dx c)) + Sum p (fun k => dA Q k j * B2R (dy k)) + Sum m (fun i => dG Q i j * B2R (dz i)) + Ed j * B2R (dx j)
     - res_dual Q x y z j) <= Se j + gamma K * w_dual Qa x y z j + IZR (Z.of_nat K) * tiny (-1074))%R.
Proof.
  intros Hj. assert (Ha : 0 <= j < N) by (unfold pN; lia). destruct (dir_bound j Ha) as [F H].
  rewrite (KF_row B pt Hn Hm Hp HP HG HA EK Hrow) in H by exact Ha. destruct (Z.ltb_spec j n); [|lia].
  assert (Er : rhsF FA B pt ds j = rxF FA B pt j) by (unfold rhsF, stack3; change (@pn (car FA) B) with (@pn b64 B); destruct (Z.ltb_spec j n) as [_|X]; [reflexivity|lia]).
  rewrite Er in *. pose proof (apx_gamma _ _ _ _ _ K (rx_apx B pt Hm Hp HG HA K HK j Hj) (Nat.le_refl _) Hg F) as R1.
  rewrite (Sum_ext n _ (fun c => dP Q j c * B2R (dirU FA B pt ds c))%R) by (intros; rewrite dirX_U; reflexivity). rewrite dirX_U.
  pose proof three_half. pose proof (add_le _ _ _ _ (opp_le _ _ H) R1) as X. eapply Rle_trans; [|eapply Rle_trans; [exact X|lra]]. right. f_equal.
  unfold dirY, dirZ. cbn [car FA]. ring.
Qed.

Lemma dir_eq k : 0 <= k < p ->
  (Rabs (Sum n (fun c => dA Q k c * B2R (dx c)) + Ed (n + k) * B2R (dy k) - res_eq Q x k) <=
     Se (n + k) + gamma K * w_eq Qa x k + IZR (Z.of_nat K) * tiny (-1074))%R.
Proof.
  intros Hk. assert (Ha : 0 <= n + k < N) by (unfold pN; lia). destruct (dir_bound (n + k) Ha) as [F H].
  rewrite (KF_row B pt Hn Hm Hp HP HG HA EK Hrow) in H by exact Ha. destruct (Z.ltb_spec (n + k) n); [lia|]. destruct (Z.ltb_spec (n + k) (n + p)); [|lia].
  replace (n + k - n) with k in H by lia.
  assert (Er : rhsF FA B pt ds (n + k) = ryF FA B pt k).
  { unfold rhsF, stack3. change (@pn (car FA) B) with (@pn b64 B). change (@pp (car FA) B) with (@pp b64 B). destruct (Z.ltb_spec (n + k) n) as [X|_]; [lia|].
    destruct (Z.ltb_spec (n + k) (n + p)) as [_|X]; [|lia]. f_equal. lia. }
  rewrite Er in *. pose proof (apx_gamma _ _ _ _ _ K (ry_apx B pt Hn Hm Hp K HK k) (Nat.le_refl _) Hg F) as R1.
  rewrite (Sum_ext n _ (fun c => dA Q k c * B2R (dirU FA B pt ds c))%R) by (intros; rewrite dirX_U; reflexivity).
  pose proof three_half. pose proof (add_le _ _ _ _ (opp_le _ _ H) R1) as X. eapply Rle_trans; [|eapply Rle_trans; [exact X|lra]]. right. f_equal.
  unfold dirY. cbn [car FA]. ring.
Qed.

Lemma dir_comp i : 0 <= i < m ->
  (Rabs (z i * B2R (dS i) + s i * B2R (dz i) - B2R (ds i)) <= tiny (-51) * (Rabs (B2R (ds i)) + Rabs (s i * B2R (dz i))) + tiny (-1074) * (1 + Rabs (z i)))%R.
Proof. intros Hi. apply (comp_err (ptS FA pt i) (ptZ FA pt i) (ds i) (dz i) (FdS i Hi) (Fz i Hi) (proj2 (w_fin i Hi))). Qed.

Lemma dir_in i : 0 <= i < m ->
  (Rabs (Sum n (fun c => dG Q i c * B2R (dx c)) + B2R (dS i) + Ed (n + p + i) * B2R (dz i) - res_in Q x s i) <=
     Se (n + p + i) + 2 * (gamma K * w_in Qa x s i) + tiny (-50) * (Rabs (B2R (ds i) / z i) + Rabs (s i * B2R (dz i) / z i))
     + tiny (-1074) * (INR K + 3 + Rabs (B2R (dz i)) + / Rabs (z i)))%R.
Proof.
  intros Hi. assert (Ha : 0 <= n + p + i < N) by (unfold pN; lia). destruct (dir_bound (n + p + i) Ha) as [F H].
  rewrite (KF_row B pt Hn Hm Hp HP HG HA EK Hrow) in H by exact Ha.
  destruct (Z.ltb_spec (n + p + i) n); [lia|]. destruct (Z.ltb_spec (n + p + i) (n + p)); [lia|].
  replace (n + p + i - n - p) with i in H by lia.
  assert (Er : rhsF FA B pt ds (n + p + i) = fsub FA (rzF FA B pt i) (b64_div (ds i) (ptZ FA pt i))).
  { unfold rhsF, stack3. change (@pn (car FA) B) with (@pn b64 B). change (@pp (car FA) B) with (@pp b64 B). destruct (Z.ltb_spec (n + p + i) n) as [X|_]; [lia|].
    destruct (Z.ltb_spec (n + p + i) (n + p)) as [X|_]; [lia|]. replace (n + p + i - n - p) with i by lia. replace (n + p + i - (n + p)) with i by lia. reflexivity. }
  rewrite Er in *. destruct (w_fin i Hi) as [Fw Nz].
  pose proof (rz_apx B pt Hn Hm Hp K HK i) as Ap. destruct (sub_fin _ _ F) as [Frz _].
  rewrite (Sum_ext n _ (fun c => dG Q i c * B2R (dirU FA B pt ds c))%R) by (intros; rewrite dirX_U; reflexivity).
  apply (ineq_err (ptS FA pt i) (ptZ FA pt i) (ds i) (dz i) (FdS i Hi) (Fz i Hi) Nz (rzF FA B pt i)); auto.
  - apply (ap_size _ _ _ _ _ Ap).
  - exact K1.
  - apply (apx_gamma _ _ _ _ _ K Ap (Nat.le_refl _) Hg Frz).
Qed.
End Direction.

(** ** The residuals after the step *)

Section Moved.
Open Scope R_scope.

Lemma Sum_err k (a t w : Z -> R) : (forall j, (0 <= j < k)%Z -> Rabs (t j) <= w j) -> Rabs (Sum k (fun j => a j * t j)) <= Sum k (fun j => Rabs (a j) * w j).
Proof.
  intros H. eapply Rle_trans; [apply sumr_abs|]. apply Sum_le. intros j Hj. rewrite Rabs_mult. apply Rmult_le_compat_l; [apply Rabs_pos|auto].
Qed.

Lemma Sum_move k (a v v' d : Z -> R) al : Sum k (fun j => a j * v' j) = Sum k (fun j => a j * v j) + al * Sum k (fun j => a j * d j) + Sum k (fun j => a j * (v' j - (v j + al * d j))).
Proof. rewrite <- Sum_scal, <- !Sum_plus. apply Sum_ext. intros. ring. Qed.

Variable Q : QPdata.
Notation n := (dn Q).
Notation m := (dm Q).
Notation p := (dp Q).

Lemma moved_res_eq x x' dx e al err mx k : (forall j, (0 <= j < n)%Z -> Rabs (x' j - (x j + al * dx j)) <= mx j) ->
  Rabs (Sum n (fun c => dA Q k c * dx c) + e - res_eq Q x k) <= err ->
  Rabs (res_eq Q x' k - (1 - al) * res_eq Q x k) <= Rabs al * (Rabs e + err) + Sum n (fun j => Rabs (dA Q k j) * mx j).
Proof.
  intros Hm Hd. pose proof (Sum_err n (dA Q k) _ mx Hm) as Hs. unfold res_eq in *. rewrite (Sum_move n (dA Q k) x x' dx al).
  set (S0 := Sum n (fun c => dA Q k c * x c)) in *. set (S1 := Sum n (fun c => dA Q k c * dx c)) in *. set (S2 := Sum n (fun j => dA Q k j * (x' j - (x j + al * dx j)))) in *.
  replace (db Q k - (S0 + al * S1 + S2) - (1 - al) * (db Q k - S0)) with (al * (e + - (S1 + e - (db Q k - S0))) + - S2) by ring.
  apply add_le; [apply mul_le; [lra|apply add_le; [lra|apply opp_le; exact Hd]]|apply opp_le; exact Hs].
Qed.

Lemma moved_res_in x x' dx s s' d e al err mx ms k : (forall j, (0 <= j < n)%Z -> Rabs (x' j - (x j + al * dx j)) <= mx j) ->
  Rabs (s' k - (s k + al * d)) <= ms ->
  Rabs (Sum n (fun c => dG Q k c * dx c) + d + e - res_in Q x s k) <= err ->
  Rabs (res_in Q x' s' k - (1 - al) * res_in Q x s k) <= Rabs al * (Rabs e + err) + Sum n (fun j => Rabs (dG Q k j) * mx j) + ms.
Proof.
  intros Hm Hms Hd. pose proof (Sum_err n (dG Q k) _ mx Hm) as Hs. unfold res_in in *. rewrite (Sum_move n (dG Q k) x x' dx al).
  set (S0 := Sum n (fun c => dG Q k c * x c)) in *. set (S1 := Sum n (fun c => dG Q k c * dx c)) in *. set (S2 := Sum n (fun j => dG Q k j * (x' j - (x j + al * dx j)))) in *.
  replace (dh Q k - s' k - (S0 + al * S1 + S2) - (1 - al) * (dh Q k - s k - S0)) with (al * (e + - (S1 + d + e - (dh Q k - s k - S0))) + - S2 + - (s' k - (s k + al * d))) by ring.
  apply add_le; [|apply opp_le; exact Hms]. apply add_le; [apply mul_le; [lra|apply add_le; [lra|apply opp_le; exact Hd]]|apply opp_le; exact Hs].
Qed.

Lemma moved_res_dual x x' dx y y' dy z z' dz e ap ad err mx my mz j :
  (forall j, (0 <= j < n)%Z -> Rabs (x' j - (x j + ap * dx j)) <= mx j) ->
  (forall j, (0 <= j < p)%Z -> Rabs (y' j - (y j + ad * dy j)) <= my j) ->
  (forall j, (0 <= j < m)%Z -> Rabs (z' j - (z j + ad * dz j)) <= mz j) ->
  Rabs (Sum n (fun c => dP Q j c * dx c) + Sum p (fun k => dA Q k j * dy k) + Sum m (fun i => dG Q i j * dz i) + e - res_dual Q x y z j) <= err ->
  Rabs (res_dual Q x' y' z' j - (1 - ad) * res_dual Q x y z j - (ad - ap) * Sum n (fun c => dP Q j c * dx c)) <=
    Rabs ad * (Rabs e + err) + Sum n (fun c => Rabs (dP Q j c) * mx c) + Sum p (fun k => Rabs (dA Q k j) * my k) + Sum m (fun i => Rabs (dG Q i j) * mz i).
Proof.
  intros Hx Hy Hz Hd. pose proof (Sum_err n (dP Q j) _ mx Hx) as Sx. pose proof (Sum_err p (fun k => dA Q k j) _ my Hy) as Sy. pose proof (Sum_err m (fun i => dG Q i j) _ mz Hz) as Sz.
  unfold res_dual in *. rewrite (Sum_move n (dP Q j) x x' dx ap), (Sum_move p (fun k => dA Q k j) y y' dy ad), (Sum_move m (fun i => dG Q i j) z z' dz ad).
  cbv beta in *.
  set (P0 := Sum n (fun c => dP Q j c * x c)) in *. set (P1 := Sum n (fun c => dP Q j c * dx c)) in *. set (P2 := Sum n (fun c => dP Q j c * (x' c - (x c + ap * dx c)))) in *.
  set (A0 := Sum p (fun c => dA Q c j * y c)) in *. set (A1 := Sum p (fun c => dA Q c j * dy c)) in *. set (A2 := Sum p (fun c => dA Q c j * (y' c - (y c + ad * dy c)))) in *.
  set (G0 := Sum m (fun c => dG Q c j * z c)) in *. set (G1 := Sum m (fun c => dG Q c j * dz c)) in *. set (G2 := Sum m (fun c => dG Q c j * (z' c - (z c + ad * dz c)))) in *.
  replace (- (P0 + ap * P1 + P2) - (G0 + ad * G1 + G2) - (A0 + ad * A1 + A2) - dc Q j - (1 - ad) * (- P0 - G0 - A0 - dc Q j) - (ad - ap) * P1)
    with (ad * (e + - (P1 + A1 + G1 + e - (- P0 - G0 - A0 - dc Q j))) + - P2 + - A2 + - G2) by ring.
  repeat apply add_le; try (apply opp_le; assumption). apply mul_le; [lra|apply add_le; [lra|apply opp_le; exact Hd]].
Qed.
End Moved.
