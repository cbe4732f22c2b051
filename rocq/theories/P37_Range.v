(** C77: the integers kept in the handle.  Setup fixes the index arrays, solves change only the four work arrays of the
    numerical factorisation, and every stored index stays within bounds given by the dimensions. *)
From Coq Require Import ZArith Reals List Lia Bool.
From RecordUpdate Require Import RecordUpdate.
From Verif Require Import Res Partial Arith Lists MSparse Csc SemVec MLdl MSolver KktProofs LdlSpec LdlSym LdlNum LdlFun Iter SafeInst Session Spec SpecLink Api Demo P4_Always.
Import ListNotations.
Open Scope Z_scope.
Open Scope res_scope.

(** Every assigned cell holds a number from [lo] to [hi]. *)
Definition within (lo hi : Z) (a : arr Z) : Prop := forall i z, rd a i = Ok z -> lo <= z <= hi.

Lemma within_wr lo hi a i v (Q : arr Z -> Prop) : within lo hi a -> lo <= v <= hi ->
  (forall a', 0 <= i < zlen a -> zlen a' = zlen a -> within lo hi a' -> Q a') -> pw (wr a i v) Q.
Proof.
  intros H Hv HQ. apply pw_wr. intros a' Hi L R. apply HQ; auto. intros j z. rewrite R. destruct (j =? i); [intros E; injection E as <-; auto|apply H].
Qed.

Lemma within_malloc lo hi k : within lo hi (malloc Z k).
Proof.
  intros i z E. exfalso. unfold rd, malloc in E. destruct (i <? 0); [discriminate|].
  destruct (nth_error _ _) as [[v|]|] eqn:X in E; try discriminate. apply nth_error_In in X. apply repeat_spec in X. discriminate.
Qed.

Lemma within_mono lo hi lo' hi' a : within lo hi a -> lo' <= lo -> hi <= hi' -> within lo' hi' a.
Proof. intros H H1 H2 i z E. specialize (H i z E). lia. Qed.

(** ** LDL_symbolic *)

Lemma sym_walk_range n k : 0 <= k < n -> forall fuel i st,
  (let '(Parent, Lnz, Flag) := st in zlen Flag = n /\ zlen Lnz = n /\ within 0 (n - 1) Flag /\ within 0 (k + 1) Lnz /\
     (forall j f z, rd Flag j = Ok f -> f <> k -> rd Lnz j = Ok z -> z <= k)) ->
  pw (sym_walk fuel k i st) (fun st => let '(Parent, Lnz, Flag) := st in zlen Flag = n /\ zlen Lnz = n /\ within 0 (n - 1) Flag /\ within 0 (k + 1) Lnz /\
     (forall j f z, rd Flag j = Ok f -> f <> k -> rd Lnz j = Ok z -> z <= k)).
Proof.
  intros Hk. induction fuel as [|fuel IH]; intros i [[Parent Lnz] Flag] [L [L' [HF [HL HX]]]]; cbn [sym_walk].
  - apply pw_skip. intros fi Ef. destruct (fi =? k); [apply pw_ok; auto|]. intros r E. discriminate.
  - apply pw_skip. intros fi Ef. destruct (Z.eqb_spec fi k); [apply pw_ok; auto|].
    apply pw_skip. intros pi Ep. apply pw_skip. intros Parent' EP. apply pw_skip. intros li El. 
    pose proof (HL _ _ El) as B1. pose proof (HX _ _ _ Ef n0 El) as B2.
    apply pw_bind. apply pw_wr. intros Lnz' HiL LL RL.
    apply pw_bind. apply pw_wr. intros Flag' HiF LF RF.
    apply pw_skip. intros i' Ei. apply IH. split; [lia|]. split; [lia|]. split; [|split].
    + intros j z. rewrite RF. destruct (Z.eqb_spec j i); [intros E; injection E as <-; lia|apply HF].
    + intros j z. rewrite RL. destruct (Z.eqb_spec j i); [intros E; injection E as <-; lia|apply HL].
    + intros j f z. rewrite RF, RL. destruct (Z.eqb_spec j i); [intros E; injection E as <-; congruence|apply HX].
Qed.

Lemma LDL_symbolic_range n Ap Ai Lp Parent Lnz Flag P Pinv : 0 <= n -> zlen Flag = n -> zlen Lnz = n -> within 0 (n - 1) Flag -> within 0 0 Lnz ->
  (forall hi, within 0 hi Lp) ->
  pw (LDL_symbolic n Ap Ai Lp Parent Lnz Flag P Pinv) (fun r => let '(Lp, Parent, Lnz, Flag, Pinv) := r in
     zlen Flag = n /\ within 0 (n - 1) Flag /\ exists C, rd Lp n = Ok C /\ within 0 C Lp /\ within 0 C Lnz).
Proof.
  intros Hn LF LN HF HL HLp. unfold LDL_symbolic. apply pw_skip. intros Pinv1 _. apply pw_bind.
  apply (pw_mono _ (fun st => let '(Parent, Lnz, Flag) := st in zlen Flag = n /\ zlen Lnz = n /\ within 0 (n - 1) Flag /\ within 0 n Lnz)).
  - apply (pw_for (fun k st => let '(Parent, Lnz, Flag) := st in zlen Flag = n /\ zlen Lnz = n /\ within 0 (n - 1) Flag /\ within 0 k Lnz)).
    + auto.
    + intros k [[Pa Ln] Fl] Hk [L1 [L2 [H1 H2]]].
      apply pw_skip. intros Pa1 _. apply pw_bind. eapply within_wr; [exact H1|lia|]. intros Fl1 _ LF1 H1'.
      apply pw_bind. eapply within_wr; [exact H2|lia|]. intros Ln1 _ LL1 H2'.
      apply pw_skip. intros kk _. apply pw_skip. intros p2 _. apply pw_skip. intros p1 _.
      apply (pw_for_inv (fun st => let '(Parent, Lnz, Flag) := st in zlen Flag = n /\ zlen Lnz = n /\ within 0 (n - 1) Flag /\ within 0 (k + 1) Lnz /\
         (forall j f z, rd Flag j = Ok f -> f <> k -> rd Lnz j = Ok z -> z <= k))).
      * split; [lia|]. split; [lia|]. split; [auto|]. split; [eapply within_mono; eauto; lia|]. intros j f z _ _ E. apply (H2' _ _ E).
      * intros q st _ HI. apply pw_skip. intros a _. apply pw_skip. intros i _. destruct (i <? k); [apply sym_walk_range; auto|apply pw_ok; auto].
      * intros [[Pa2 Ln2] Fl2] [X1 [X0 [X2 [X3 _]]]]. auto.
    + intros [[Pa Ln] Fl]. rewrite Z.max_r by lia. auto.
  - intros [[Pa Ln] Fl] [L1 [L2 [H1 H2]]]. apply pw_bind. apply pw_wr. intros Lp1 _ _ R1.
    apply pw_bind.
    match goal with |- pw ?m _ => enough (pw m (fun Lp => exists C, rd Lp n = Ok C /\ within 0 C Lp /\ forall j z, j < n -> rd Ln j = Ok z -> z <= C)) as X end.
    { eapply pw_mono; [exact X|]. intros Lp2 [C [HC1 [HC2 HC3]]]. apply pw_ok. split; [auto|]. split; [auto|]. exists C. split; [auto|]. split; [auto|].
      intros j z E. pose proof (H2 _ _ E). pose proof (rd_ok_range _ _ _ E). split; [lia|]. apply (HC3 j); auto. lia. }
    apply (pw_for (fun k Lp => exists C, rd Lp k = Ok C /\ within 0 C Lp /\ forall j z, j < k -> rd Ln j = Ok z -> z <= C)).
    + exists 0. rewrite R1, Z.eqb_refl. split; [reflexivity|]. split.
      * intros j z. rewrite R1. destruct (j =? 0); [intros E; injection E as <-; lia|apply HLp].
      * intros j z Hj E. apply rd_ok_range in E. lia.
    + intros k Lp2 Hk [C [E1 [E2 E3]]]. apply pw_skip. intros a Ea. apply pw_skip. intros b Eb. rewrite E1 in Ea. injection Ea as <-.
      pose proof (H2 _ _ Eb). pose proof (E2 _ _ E1). apply pw_wr. intros Lp3 _ _ R3. exists (C + b). rewrite R3, Z.eqb_refl. split; [reflexivity|]. split.
      2:{ intros j z Hj E. destruct (Z.eq_dec j k) as [->|]; [rewrite Eb in E; injection E as <-; lia|]. specialize (E3 j z ltac:(lia) E). lia. }
      intros j z. rewrite R3. destruct (j =? k + 1); [intros E; injection E as <-; lia|]. intros E. specialize (E2 _ _ E). lia.
    + intros Lp2. rewrite Z.max_r by lia. auto.
Qed.

(** ** LDL_numeric *)

Lemma num_walk_range n Parent k : 0 <= k < n -> forall fuel i st,
  (let '(Pattern, Flag, len) := st in zlen Flag = n /\ within 0 (n - 1) Flag /\ within 0 (n - 1) Pattern) ->
  pw (num_walk fuel Parent k i st) (fun st => let '(Pattern, Flag, len) := st in
     zlen Flag = n /\ within 0 (n - 1) Flag /\ within 0 (n - 1) Pattern).
Proof.
  intros Hk. induction fuel as [|fuel IH]; intros i [[Pattern Flag] len] [L [HF HP]]; cbn [num_walk].
  - apply pw_skip. intros fi Ef. destruct (fi =? k); [apply pw_ok; auto|]. intros r E. discriminate.
  - apply pw_skip. intros fi Ef. apply rd_ok_range in Ef. destruct (fi =? k); [apply pw_ok; auto|].
    apply pw_bind. eapply within_wr; [exact HP|lia|]. intros Pattern1 _ _ HP1.
    apply pw_bind. eapply within_wr; [exact HF|lia|]. intros Flag1 _ LF1 HF1.
    apply pw_skip. intros i' _. apply IH. split; [lia|auto].
Qed.

Lemma push_path_range lo hi Pattern len top : within lo hi Pattern -> pw (push_path Pattern len top) (within lo hi).
Proof.
  intros H. unfold push_path. apply (pw_for_inv (within lo hi)); auto. intros t Pa _ HP. apply pw_skip. intros v Ev.
  eapply within_wr; [exact HP|exact (HP _ _ Ev)|auto].
Qed.

Section Numeric.
Variable A : Arith.
Notation F := (car A).

(** The integers of the work arrays, for matrices of order [n] and a factor with [C] entries below the diagonal. *)
Record num_ints (n C : Z) (w : numst A) : Prop := mkNumInts {
  ni_Flag : within 0 (n - 1) (nFlag A w);
  ni_len : zlen (nFlag A w) = n;
  ni_Pattern : within 0 (n - 1) (nPattern A w);
  ni_Li : within 0 (n - 1) (nLi A w);
  ni_lenLi : zlen (nLi A w) = C + 1;
  ni_Lnz : within 0 (C + 1) (nLnz A w)
}.

Lemma num_row_range n C Ap Ai Ax Lp Parent P Pinv k w : 0 <= k < n -> 0 <= C -> within 0 C Lp -> num_ints n C w ->
  pw (num_row A n Ap Ai Ax Lp Parent P Pinv k w) (num_ints n C).
Proof.
  intros Hk HC HLp [HF LF HP HL LL HN]. unfold num_row.
  apply pw_skip. intros Y _. apply pw_bind. eapply within_wr; [exact HF|lia|]. intros Flag1 _ LF1 HF1.
  apply pw_bind. eapply within_wr; [exact HN|lia|]. intros Lnz1 _ _ HN1.
  apply pw_bind.
  apply (pw_mono _ (fun st => let '(Y, Pattern, Flag, top) := st in zlen Flag = n /\ within 0 (n - 1) Flag /\ within 0 (n - 1) Pattern)).
  - unfold num_scatter. apply pw_skip. intros kk _. apply pw_skip. intros p2 _. apply pw_skip. intros p1 _.
    apply (pw_for_inv (fun st : arr F * arr Z * arr Z * Z => let '(Y, Pattern, Flag, top) := st in zlen Flag = n /\ within 0 (n - 1) Flag /\ within 0 (n - 1) Pattern)).
    + split; [lia|auto].
    + intros q [[[Y1 Pa] Fl] top] _ [X1 [X2 X3]]. apply pw_skip. intros a _. apply pw_skip. intros i _. destruct (i <=? k); [|apply pw_ok; auto].
      apply pw_skip. intros yi _. apply pw_skip. intros v _. apply pw_skip. intros Y2 _. apply pw_bind.
      eapply pw_mono; [apply (num_walk_range n); [exact Hk|split; auto]|]. intros [[Pa1 Fl1] len] [Z1 [Z2 Z3]].
      apply pw_bind. eapply pw_mono; [apply push_path_range; exact Z3|]. intros Pa2 HPa2. apply pw_ok. auto.
    + auto.
  - intros [[[Y1 Pattern] Flag2] top] [LF2 [HF2 HP2]]. apply pw_skip. intros yk _. apply pw_skip. intros D _. apply pw_skip. intros Y2 _.
    apply pw_bind.
    apply (pw_for_inv (fun st : arr Z * arr Z * arr F * arr F * arr F => let '(Lnz, Li, Lx, D, Y) := st in
        within 0 (C + 1) Lnz /\ within 0 (n - 1) Li /\ zlen Li = C + 1)).
    + auto.
    + intros t [[[[Lnz Li] Lx] D1] Y3] _ [X1 [X2 X3]]. unfold num_elim.
      apply pw_skip. intros i _. apply pw_skip. intros yi _. apply pw_skip. intros Y4 _. apply pw_skip. intros lp Elp. apply pw_skip. intros lnz Elnz.
      cbv zeta. apply pw_skip. intros Y5 _. apply pw_skip. intros di _. apply pw_skip. intros lki _. apply pw_skip. intros dk _. apply pw_skip. intros D2 _.
      pose proof (HLp _ _ Elp) as B1. pose proof (X1 _ _ Elnz) as B2.
      apply pw_bind. eapply within_wr; [exact X2|lia|]. intros Li1 R1 LLi HLi. apply pw_skip. intros Lx1 _.
      apply pw_bind. eapply within_wr; [exact X1|lia|]. intros Lnz2 _ _ HLnz. apply pw_ok. split; [auto|]. split; [auto|lia].
    + intros [[[[Lnz Li] Lx] D1] Y3] [X1 [X2 X3]]. apply pw_skip. intros dk _. apply pw_skip. intros D2 _. apply pw_ok. split; auto.
Qed.

(** The same for the handle; [n] and [C] as above. *)
Record work_ints (n C : Z) (k : kkt F) : Prop := mkWorkInts {
  wi_n : sn (k_mat k) = n;
  wi_C : 0 <= C;
  wi_Lp : within 0 C (k_Lp k);
  wi_Flag : within 0 (n - 1) (k_Flag k);
  wi_len : zlen (k_Flag k) = n;
  wi_Pattern : within 0 (n - 1) (k_Pattern k);
  wi_Li : within 0 (n - 1) (k_Li k);
  wi_lenLi : zlen (k_Li k) = C + 1;
  wi_Lnz : within 0 (C + 1) (k_Lnz k)
}.

(** The integer arrays that only setup writes. *)
Record same_index (k k' : kkt F) : Prop := mkSameIndex {
  si_jc : jc (k_mat k') = jc (k_mat k); si_ir : ir (k_mat k') = ir (k_mat k); si_sn : sn (k_mat k') = sn (k_mat k);
  si_P : k_P k' = k_P k; si_Pinv : k_Pinv k' = k_Pinv k; si_Parent : k_Parent k' = k_Parent k; si_Lp : k_Lp k' = k_Lp k;
  si_Lti : k_Lti k' = k_Lti k; si_Ltp : k_Ltp k' = k_Ltp k
}.

Lemma same_refl k : same_index k k.
Proof. split; reflexivity. Qed.
Lemma same_trans k1 k2 k3 : same_index k1 k2 -> same_index k2 k3 -> same_index k1 k3.
Proof. intros [] []. split; congruence. Qed.

Lemma kkt_numeric_range n C k : work_ints n C k -> pw (kkt_numeric A k) (fun r => work_ints n C (snd r) /\ same_index k (snd r)).
Proof.
  intros [En HC HLp HF LF HP HL LL HN]. unfold kkt_numeric. rewrite En. unfold LDL_numeric. apply pw_bind. apply pw_bind.
  apply (pw_for_inv (num_ints n C)).
  - split; auto.
  - intros i w Hi Hw. apply num_row_range; auto.
  - intros w [W1 W2 W3 W4 W5 W6]. apply pw_ok. apply pw_ok. cbn [snd]. split; split; auto.
Qed.
End Numeric.

(** ** Solves *)

Section Solve.
Variable A : Arith.
Notation F := (car A).
Variables (n C : Z) (k0 : kkt F).

Definition held (q : qp F) : Prop := work_ints A n C (q_kkt q) /\ same_index A k0 (q_kkt q).

Lemma held_b q b : held q -> held (q <| q_kkt := (q_kkt q) <| k_b := b |> |>).
Proof. intros [[] []]. split; split; assumption. Qed.

Ltac pok := apply pw_ok.
Ltac pstep :=
  match goal with
  | |- pw (bind _ _) _ => apply pw_skip; let x := fresh "x" in let E := fresh "E" in intros x E; cbv zeta beta
  | |- pw (let '(_, _) := ?x in _) _ => destruct x
  | |- pw (if ?b then _ else _) _ => destruct b
  end.

Lemma do_form_ds_held q s : held q -> pw (do_form_ds A q s) held.
Proof. intros H. unfold do_form_ds. repeat pstep. pok. exact H. Qed.
Lemma do_update_b_held q : held q -> pw (do_update_b A q) held.
Proof. intros H. unfold do_update_b. repeat pstep. pok. apply held_b. exact H. Qed.

Lemma updatekktmatrix_index K s z ds dz ap ad m nn p ind : pw (updatekktmatrix A K s z ds dz ap ad m nn p ind) (fun K' =>
  jc K' = jc K /\ ir K' = ir K /\ sn K' = sn K).
Proof. unfold updatekktmatrix. cbv zeta. do 3 (apply pw_skip; intros ? _). pok. auto. Qed.

Lemma do_update_kkt_held q : held q -> pw (do_update_kkt A q) held.
Proof.
  intros [[] []]. unfold do_update_kkt. apply pw_bind. eapply pw_mono; [apply updatekktmatrix_index|]. intros K [H1 [H2 H3]]. pok.
  split; split; cbn; first [assumption|congruence].
Qed.

Lemma numeric_held q : held q -> pw (kkt_numeric A (q_kkt q)) (fun r => work_ints A n C (snd r) /\ same_index A k0 (snd r)).
Proof.
  intros [H1 H2]. eapply pw_mono; [apply kkt_numeric_range; exact H1|]. intros r [H3 H4]. split; auto. eapply same_trans; eauto.
Qed.

Lemma kktsolve_1_held q : held q -> pw (kktsolve_1 A q) (fun r => held (snd r)).
Proof.
  intros H. unfold kktsolve_1. apply pw_bind. eapply pw_mono; [apply numeric_held; exact H|]. intros [d k] [H1 H2]. cbn [snd] in *.
  pstep; [|pok; split; assumption]. repeat pstep. pok. cbn [snd]. destruct H1, H2. split; split; assumption.
Qed.

Lemma kktsolve_2_held q : held q -> pw (kktsolve_2 A q) held.
Proof.
  intros H. unfold kktsolve_2. apply pw_skip. intros rk _. apply pw_bind.
  apply (pw_mono _ (fun k => work_ints A n C k /\ same_index A k0 k)).
  - pstep; [|pok; exact H]. apply pw_bind. eapply pw_mono; [apply numeric_held; exact H|]. intros [d k] Hk. pok. exact Hk.
  - intros k [H1 H2]. repeat pstep. pok. destruct H1, H2. split; split; assumption.
Qed.

Lemma computeresiduals_held q : held q -> pw (computeresiduals A q) held.
Proof.
  intros H. unfold computeresiduals. pstep. pstep. apply pw_skip. intros rx _. pstep. pstep. apply pw_bind.
  apply (pw_mono _ held).
  - pstep; [repeat pstep; pok; exact H|pok; exact H].
  - intros q1 H1. repeat pstep. pok. exact H1.
Qed.

Lemma predictor_branch_held q : held q -> pw (predictor_branch A q) (fun r => held (snd r)).
Proof.
  intros H. unfold predictor_branch. apply pw_bind. eapply pw_mono; [apply do_form_ds_held; exact H|]. intros q1 H1.
  apply pw_bind. eapply pw_mono; [apply do_update_kkt_held; exact H1|]. intros q2 H2.
  apply pw_bind. eapply pw_mono; [apply do_update_b_held; exact H2|]. intros q3 H3.
  apply pw_bind. eapply pw_mono; [apply kktsolve_1_held; exact H3|]. intros [ok q4] H4. cbn [snd] in *.
  pstep; [|pok; exact H4]. pstep. destruct x as [ap ad]. cbv zeta. pstep.
  apply pw_bind. eapply pw_mono; [apply do_form_ds_held; exact H4|]. intros q5 H5.
  apply pw_bind. eapply pw_mono; [apply do_update_b_held; exact H5|]. intros q6 H6.
  pok. exact H6.
Qed.

Lemma centering_branch_held q : held q -> pw (centering_branch A q) held.
Proof.
  intros H. unfold centering_branch. cbv zeta. apply pw_bind. eapply pw_mono; [apply do_form_ds_held; exact H|]. intros q1 H1.
  apply pw_bind. eapply pw_mono; [apply do_update_kkt_held; exact H1|]. intros q2 H2.
  apply pw_bind. eapply pw_mono; [apply do_update_b_held; exact H2|]. intros q3 H3. pok. exact H3.
Qed.

Lemma take_step_held q : held q -> pw (take_step A q) held.
Proof.
  intros H. unfold take_step. apply pw_bind. eapply pw_mono; [apply kktsolve_2_held; exact H|]. intros q1 H1.
  apply pw_skip. intros [ap ad] _. cbv zeta. repeat pstep. pok. exact H1.
Qed.

Lemma solve_iter_held q : held q -> pw (solve_iter A q) (fun r => held (fst r)).
Proof.
  intros H. unfold solve_iter. apply pw_bind. eapply pw_mono; [apply computeresiduals_held; exact H|]. intros q1 H1.
  pstep. destruct x as [fv temp]. cbv zeta. pstep. pstep. pstep; [pok; exact H1|]. pstep. pstep. pstep. apply pw_bind.
  match goal with |- pw _ _ => apply (pw_mono _ (fun r => held (snd r))) end.
  - pstep.
    + eapply pw_mono; [apply predictor_branch_held; exact H1|]. auto.
    + apply pw_bind. eapply pw_mono; [apply centering_branch_held; exact H1|]. intros q2 H2. pok. exact H2.
  - intros [ok q2] H2. cbn [snd] in *. pstep; [|pok; exact H2]. apply pw_bind. eapply pw_mono; [apply take_step_held; exact H2|]. intros q3 H3. pok. exact H3.
Qed.

Lemma QP_SOLVE_held q : held q -> pw (QP_SOLVE A q) (fun r => held (snd r)).
Proof.
  intros H. unfold QP_SOLVE. pstep; [pok; exact H|]. apply pw_bind. apply (pw_for_inv (fun st => held (fst st))).
  - exact H.
  - intros i [q1 stopped] _ H1. destruct stopped; [pok; exact H1|]. apply solve_iter_held. exact H1.
  - intros [q1 b] H1. cbv zeta. pok. cbn [snd fst] in *. destruct (_ =? _); exact H1.
Qed.

Lemma run_calls_held l : forall q, held q -> pw (run_calls A q l) (fun r => held (snd r)).
Proof.
  induction l as [|[o|] l IH]; intros q H; cbn [run_calls].
  - pok. exact H.
  - apply IH. exact H.
  - apply pw_bind. eapply pw_mono; [apply QP_SOLVE_held; exact H|]. intros [code q1] H1. cbn [snd] in *.
    apply pw_bind. eapply pw_mono; [apply IH; exact H1|]. intros [codes q2] H2. pok. exact H2.
Qed.
End Solve.

(** ** Setup *)

Section Setup.
Variable A : Arith.
Notation F := (car A).

Ltac pok := apply pw_ok.
Ltac pstep :=
  match goal with
  | |- pw (bind _ _) _ => apply pw_skip; let x := fresh "x" in let E := fresh "E" in intros x E; cbv zeta beta
  | |- pw (let '(_, _) := ?x in _) _ => destruct x
  | |- pw (if ?b then _ else _) _ => destruct b
  end.

Lemma zlen_malloc T k : 0 <= k -> zlen (malloc T k) = k.
Proof. intros H. unfold zlen, malloc. rewrite repeat_length. lia. Qed.

Lemma ldlinitialsolve_range k delta : 0 <= sn (k_mat k) ->
  pw (ldlinitialsolve A k delta) (fun r => exists C, rd (k_Lp (snd (fst r))) (sn (k_mat k)) = Ok C /\ work_ints A (sn (k_mat k)) C (snd (fst r))).
Proof.
  intros Hn. unfold ldlinitialsolve. cbv zeta. set (n := sn (k_mat k)) in *. apply pw_bind.
  eapply pw_mono.
  { apply (LDL_symbolic_range n); auto; [apply zlen_malloc; auto|apply zlen_malloc; auto|apply within_malloc|apply within_malloc|intros; apply within_malloc]. }
  intros [[[[Lp Parent] Lnz] Fl] Pinv] [H0 [H1 [C [H3 [H4 H5]]]]].
  apply pw_skip. intros Pinv1 _. apply pw_skip. intros lnz El. rewrite H3 in El. injection El as <-.
  assert (HC : 0 <= C) by (specialize (H4 _ _ H3); lia).
  apply pw_bind. eapply pw_mono.
  { apply (kkt_numeric_range A n C). split; cbn; auto.
    - apply within_malloc.
    - apply within_malloc.
    - apply zlen_malloc. lia.
    - eapply within_mono; eauto; lia. }
  intros [d k1] [K1 K2]. cbn [snd] in *. assert (EL : rd (k_Lp k1) n = Ok C) by (rewrite (si_Lp _ _ _ K2); exact H3).
  clear K2. apply pw_skip. intros [Lti Ltp] _. cbv zeta. pstep.
  - pstep. destruct x as [dl b]. pok. cbn [fst snd]. exists C. split; [exact EL|]. destruct K1. split; assumption.
  - pok. cbn [fst snd]. exists C. split; [exact EL|]. destruct K1. split; assumption.
Qed.

Lemma kkt_initialize_range q : 0 <= sn (k_mat (q_kkt q)) ->
  pw (kkt_initialize A q) (fun r => exists C, rd (k_Lp (q_kkt (snd r))) (sn (k_mat (q_kkt q))) = Ok C /\ work_ints A (sn (k_mat (q_kkt q))) C (q_kkt (snd r))).
Proof.
  intros Hn. unfold kkt_initialize. cbv zeta. pstep. pstep. pstep. apply pw_bind. eapply pw_mono; [apply ldlinitialsolve_range; exact Hn|].
  intros [[ok k] delta] H. cbn [fst snd] in *. pstep; [|pok; exact H]. pstep. pstep. pstep. pstep. pstep. destruct x6 as [mn mx]. pstep. pstep. pok. exact H.
Qed.

Lemma formkktmatrix_sn P G AAt Gt K : pw (formkktmatrix_full A P G AAt Gt K) (fun K' => sn K' = sn K).
Proof.
  unfold formkktmatrix_full. apply pw_skip. intros kjc _. destruct AAt as [[M Mt]|].
  - apply pw_skip. intros [kjc1 st1] _. apply pw_skip. intros [kjc2 st2] _. apply pw_skip. intros [kjc3 [[kir kpr] k]] _. pok. reflexivity.
  - apply pw_skip. intros [kjc1 st1] _. apply pw_skip. intros [kjc3 [[kir kpr] k]] _. pok. reflexivity.
Qed.

Lemma setup_core_range amd n m p_arg P G AM c h b sd Permut : 0 <= sn P -> 0 <= sm G -> match AM with Some M => 0 <= sm M | None => True end ->
  pw (setup_core A amd n m p_arg P G AM c h b sd Permut) (fun q =>
     exists C, rd (k_Lp (q_kkt q)) (sn (k_mat (q_kkt q))) = Ok C /\ work_ints A (sn (k_mat (q_kkt q))) C (q_kkt q)).
Proof.
  intros HP HG HA. unfold setup_core. cbv zeta. pstep. pstep.
  destruct AM as [M|]; cbv beta iota.
  - apply pw_bind. eapply pw_mono; [apply formkktmatrix_sn|]. intros K HK. cbn in HK.
    apply pw_skip. intros [Pm r] _. apply pw_bind. eapply pw_mono; [apply kkt_initialize_range; cbn; lia|].
    intros [ok q] [C [H1 H2]]. cbn [fst snd q_kkt k_mat] in *. pok. exists C. rewrite <- (wi_n _ _ _ _ H2) in H1 at 1.
    destruct ok; (split; [exact H1|]); cbn; rewrite (wi_n _ _ _ _ H2); exact H2.
  - apply pw_bind. eapply pw_mono; [apply formkktmatrix_sn|]. intros K HK. cbn in HK.
    apply pw_skip. intros [Pm r] _. apply pw_bind. eapply pw_mono; [apply kkt_initialize_range; cbn; lia|].
    intros [ok q] [C [H1 H2]]. cbn [fst snd q_kkt k_mat] in *. pok. exists C. rewrite <- (wi_n _ _ _ _ H2) in H1 at 1.
    destruct ok; (split; [exact H1|]); cbn; rewrite (wi_n _ _ _ _ H2); exact H2.
Qed.

Lemma setup_range amd u : 0 <= u_n u -> 0 <= u_m u -> (u_eqs u <> None -> 0 <= u_p u) ->
  pw (setup A amd u) (fun q => exists C, rd (k_Lp (q_kkt q)) (sn (k_mat (q_kkt q))) = Ok C /\ work_ints A (sn (k_mat (q_kkt q))) C (q_kkt q)).
Proof.
  intros H1 H2 H3. unfold setup, QP_SETUP. apply pw_bind.
  apply (pw_mono _ (fun AM => match AM with Some M => 0 <= sm M | None => True end)).
  - unfold u_eqs in H3. destruct (u_Apr u), (u_Ajc u), (u_Air u), (u_b u); try (pok; exact I).
    destruct (u_p u =? 0); cbn [negb]; [pok; exact I|]. pstep. pok. apply H3. discriminate.
  - intros AM HA. pstep. pstep. apply setup_core_range; cbn; auto.
Qed.
End Setup.

(** ** Theorems *)

(** The first [len] cells are assigned and hold numbers from [lo] to [hi]. *)
Definition cells (len lo hi : Z) (a : arr Z) : Prop := forall i, 0 <= i < len -> exists z, rd a i = Ok z /\ lo <= z <= hi.

(** The integers of a handle for a KKT matrix of order [N] with room for [cap] entries, whose factor has [C] entries
    below the diagonal. *)
Record integers_of {F} (N cap C : Z) (q : qp F) : Prop := mkIntegersOf {
  io_order : sn (k_mat (q_kkt q)) = N;
  io_jc : cells (N + 1) 0 cap (jc (k_mat (q_kkt q)));
  io_ir : exists e, rd (jc (k_mat (q_kkt q))) N = Ok e /\ cells e 0 (N - 1) (ir (k_mat (q_kkt q)));
  io_P : cells N 0 (N - 1) (k_P (q_kkt q));
  io_Pinv : cells N 0 (N - 1) (k_Pinv (q_kkt q));
  io_Parent : cells N (-1) (N - 1) (k_Parent (q_kkt q));
  io_Lp : cells (N + 1) 0 C (k_Lp (q_kkt q));
  io_fill : rd (k_Lp (q_kkt q)) N = Ok C /\ 0 <= C /\ 2 * C <= N * (N - 1);
  io_Lnz : within 0 (C + 1) (k_Lnz (q_kkt q));
  io_Li : within 0 (N - 1) (k_Li (q_kkt q));
  io_Flag : within 0 (N - 1) (k_Flag (q_kkt q));
  io_Pattern : within 0 (N - 1) (k_Pattern (q_kkt q))
}.

Lemma locate {F} (col : cols F) k : forall n, 0 <= n -> 0 <= k < start col n -> exists j, 0 <= j < n /\ start col j <= k < start col (j + 1).
Proof.
  apply (natlike_ind (fun n => 0 <= k < start col n -> exists j, 0 <= j < n /\ start col j <= k < start col (j + 1))).
  - rewrite start_0. lia.
  - intros n Hn IH H. rewrite <- Z.add_1_r in *. destruct (Z.lt_ge_cases k (start col n)) as [L|L].
    + destruct (IH ltac:(lia)) as [j [H1 H2]]. exists j. split; [lia|exact H2].
    + exists n. split; [lia|]. lia.
Qed.

Lemma rep_cells {F} (K : smat F) N cap col : KktRep K N cap col ->
  cells (N + 1) 0 cap (jc K) /\ exists e, rd (jc K) N = Ok e /\ cells e 0 (N - 1) (ir K).
Proof.
  intros [H0 _ _ _ _ _ _ HC HR Hcap]. split.
  - intros j Hj. exists (start col j). split; [apply (csc_jc _ _ _ _ _ HC); lia|]. pose proof (start_nonneg col j). pose proof (start_mono col j N ltac:(lia)). lia.
  - exists (start col N). split; [apply (csc_jc _ _ _ _ _ HC); lia|]. intros k Hk. destruct (locate col k N H0 Hk) as [j [Hj Hs]].
    rewrite start_succ in Hs by lia. set (t := k - start col j).
    destruct (nth_error (col j) (Z.to_nat t)) as [[r v]|] eqn:E.
    + exists r. split; [|pose proof (HR j r v Hj (nth_error_In _ _ E)); lia].
      pose proof (csc_ir _ _ _ _ _ HC j (Z.to_nat t) r v Hj E) as X. replace (start col j + Z.of_nat (Z.to_nat t)) with k in X by lia. exact X.
    + apply nth_error_None in E. unfold zlen in Hs. lia.
Qed.

Lemma lcnt_bound n par rows i : forest n par rows -> 0 <= i < n -> lcnt n par rows n i <= n - 1 - i.
Proof.
  intros HF Hi. assert (G : forall k, 0 <= k -> k <= n -> lcnt n par rows k i <= Z.max 0 (k - 1 - i)).
  2:{ specialize (G n ltac:(lia) ltac:(lia)). lia. }
  apply (natlike_ind (fun k => k <= n -> lcnt n par rows k i <= Z.max 0 (k - 1 - i))).
  - intros _. unfold lcnt, cnt. rewrite zr_nil by lia. cbn. lia.
  - intros k Hk IH Hkn. rewrite <- Z.add_1_r, lcnt_succ by lia. specialize (IH ltac:(lia)).
    destruct (inb i (patlist n par (rows k) k)) eqn:E; [|lia].
    apply inb_true in E. pose proof (fo_topo _ _ _ HF k ltac:(lia)) as [_ [T _]]. specialize (T i E). lia.
Qed.

Lemma fill_bound A n col Pf Qf par : 0 <= n -> forest n par (brows Pf Qf col) -> 2 * Lpf A n col Pf Qf par n <= n * (n - 1).
Proof.
  intros Hn HF. assert (G : forall j, 0 <= j -> j <= n -> 2 * Lpf A n col Pf Qf par j <= j * (2 * n - j - 1)).
  2:{ specialize (G n Hn ltac:(lia)). nia. }
  apply (natlike_ind (fun j => j <= n -> 2 * Lpf A n col Pf Qf par j <= j * (2 * n - j - 1))).
  - intros _. unfold Lpf. rewrite zr_nil by lia. cbn [sumz]. lia.
  - intros j Hj IH Hjn. rewrite <- Z.add_1_r, Lpf_succ by lia. specialize (IH ltac:(lia)).
    pose proof (lcnt_bound n par _ j HF ltac:(lia)). unfold lnzf. nia.
Qed.

(** The capacity of the KKT matrix in terms of the caller's arrays. *)
Lemma user_cap (A : Arith) amd (u : user (car A)) Pf Qf par : valid_user amd u -> let B := prob_of A u Pf Qf par in
  start (pP B) (pn B) + 2 * start (pG B) (pn B) + pm B + 2 * start (pA B) (pn B) = u_cap u.
Proof.
  intros [Vn Vm [nzP VP] [nzG VG] VA _ _ _ _]. cbv zeta. unfold prob_of. cbn [pP pn pG pm pA]. unfold u_cap.
  destruct (csc_link (f0 A) _ _ _ _ _ _ Vn VP) as [CP [RP SP]]. destruct (csc_link (f0 A) _ _ _ _ _ _ Vn VG) as [CG [RG SG]].
  assert (EP : get 0 (u_Pjc u) (u_n u) = nzP) by (apply get_rd, (cp_last _ _ _ _ _ (ca_pattern _ _ _ _ _ _ VP))).
  assert (EG : get 0 (u_Gjc u) (u_n u) = nzG) by (apply get_rd, (cp_last _ _ _ _ _ (ca_pattern _ _ _ _ _ _ VG))).
  rewrite SP, SG, EP, EG. unfold u_acol.
  destruct (u_eqs u) as [[[[ajc air] apr] bb]|] eqn:E.
  - destruct (VA _ _ _ _ eq_refl) as [H1 [[nz H2] H3]]. rewrite (start_column (f0 A) _ _ _ _ _ _ _ Vn H2) by lia. lia.
  - assert (E0 : start (fun _ : Z => @nil (Z * car A)) (u_n u) = 0) by (apply sumz_zero; intros; reflexivity). lia.
Qed.

(** After setup and any calls, whatever they return: every index is within the bounds the dimensions give. *)
Theorem C77_ranges (A : Arith) amd u l codes q : div_ok A -> valid_user amd u -> session A amd u l = Ok (codes, q) ->
  exists C, integers_of (u_N u) (u_cap u) C q.
Proof.
  intros Hdiv V E. unfold session in E. destruct (setup A amd u) as [q0| |] eqn:E0; cbn [bind] in E; try discriminate.
  pose proof (setup_ok A amd u Hdiv V) as W. apply wp_exists in W. destruct W as [q1 [E1 [B [r S]]]].
  rewrite E0 in E1. injection E1 as <-.
  assert (R : exists C, rd (k_Lp (q_kkt q0)) (sn (k_mat (q_kkt q0))) = Ok C /\ work_ints A (sn (k_mat (q_kkt q0))) C (q_kkt q0)).
  { apply (setup_range A amd u); auto; [apply (vu_n _ _ V)|pose proof (vu_m _ _ V); lia|].
    destruct (u_eqs u) as [[[[a b] c] d]|] eqn:Ee; [|congruence]. intros _. apply (vu_A _ _ V _ _ _ _ Ee). }
  destruct R as [C [RC RW]].
  pose proof (run_calls_held A _ C (q_kkt q0) l q0 (conj RW (same_refl A _))) as X. specialize (X _ E). cbn [snd] in X. destruct X as [W' I'].
  destruct S as [[Pf [Qf [par EB]]] _ _ Hat HK _ _ _ _ _ _]. pose proof (at_base _ _ _ _ Hat) as HB.
  assert (EN : pN B = u_N u) by (rewrite EB; reflexivity).
  rewrite EB in HK. rewrite (user_cap A amd u Pf Qf par V) in HK. rewrite <- EB, EN in HK.
  pose proof (kr_sn _ _ _ _ HK) as Esn. rewrite Esn in *.
  pose proof (b_forest _ _ _ HB) as HF. pose proof (b_sym _ _ _ HB) as HS. rewrite EN in HF, HS.
  destruct HS as [HN HP HvP HvPi HvPar HvLp _ _ _ _ _ _ _].
  destruct (rep_cells _ _ _ _ HK) as [G1 G2]. destruct I' as [I1 I2 I3 I4 I5 I6 I7 I8 I9].
  assert (EC : C = Lpf A (u_N u) (K0 A B) (pPf B) (pQf B) (ppar B) (u_N u)).
  { assert (X : Ok C = Ok (Lpf A (u_N u) (K0 A B) (pPf B) (pQf B) (ppar B) (u_N u))); [|congruence]. rewrite <- RC. apply HvLp. lia. }
  exists C. split.
  - congruence.
  - rewrite I1. exact G1.
  - rewrite I1, I2. exact G2.
  - rewrite I4. intros i Hi. exists (pPf B i). split; [apply HvP; auto|]. pose proof (pf_range _ _ _ HP i Hi). lia.
  - rewrite I5. intros i Hi. exists (pQf B i). split; [apply HvPi; auto|]. pose proof (qf_range _ _ _ HP i Hi). lia.
  - rewrite I6. intros i Hi. exists (ppar B i). split; [apply HvPar; auto|]. pose proof (fo_par _ _ _ HF i Hi). lia.
  - rewrite I7. intros i Hi. exists (Lpf A (u_N u) (K0 A B) (pPf B) (pQf B) (ppar B) i). split; [apply HvLp; auto|].
    pose proof (Lpf_nonneg A (u_N u) (K0 A B) (pPf B) (pQf B) (ppar B) i). pose proof (Lpf_mono A (u_N u) (K0 A B) (pPf B) (pQf B) (ppar B) i (u_N u) ltac:(lia)). lia.
  - rewrite I7. split; [exact RC|]. split; [apply (wi_C _ _ _ _ W')|]. rewrite EC. apply fill_bound; auto.
  - apply (wi_Lnz _ _ _ _ W').
  - apply (wi_Li _ _ _ _ W').
  - apply (wi_Flag _ _ _ _ W').
  - apply (wi_Pattern _ _ _ _ W').
Qed.

(** For arguments of any kind with dimensions that are not negative, a problem that violates every other requirement
    included: solves and changes of the options never write the index arrays that setup made, and the work arrays hold
    only valid indices and counts. *)
Definition kept {F} (q0 q : qp F) : Prop :=
  jc (k_mat (q_kkt q)) = jc (k_mat (q_kkt q0)) /\ ir (k_mat (q_kkt q)) = ir (k_mat (q_kkt q0)) /\ sn (k_mat (q_kkt q)) = sn (k_mat (q_kkt q0)) /\
  k_P (q_kkt q) = k_P (q_kkt q0) /\ k_Pinv (q_kkt q) = k_Pinv (q_kkt q0) /\ k_Parent (q_kkt q) = k_Parent (q_kkt q0) /\
  k_Lp (q_kkt q) = k_Lp (q_kkt q0) /\ k_Lti (q_kkt q) = k_Lti (q_kkt q0) /\ k_Ltp (q_kkt q) = k_Ltp (q_kkt q0).

Definition scratch {F} (q : qp F) : Prop := exists C, let N := sn (k_mat (q_kkt q)) in
  rd (k_Lp (q_kkt q)) N = Ok C /\ 0 <= C /\
  within 0 C (k_Lp (q_kkt q)) /\ within 0 (C + 1) (k_Lnz (q_kkt q)) /\
  within 0 (N - 1) (k_Li (q_kkt q)) /\ within 0 (N - 1) (k_Flag (q_kkt q)) /\ within 0 (N - 1) (k_Pattern (q_kkt q)).

Lemma kept_calls (A : Arith) q0 l codes q :
  (exists C, rd (k_Lp (q_kkt q0)) (sn (k_mat (q_kkt q0))) = Ok C /\ work_ints A (sn (k_mat (q_kkt q0))) C (q_kkt q0)) ->
  run_calls A q0 l = Ok (codes, q) -> kept q0 q /\ scratch q.
Proof.
  intros [C [RC RW]] E. pose proof (run_calls_held A _ C (q_kkt q0) l q0 (conj RW (same_refl A _)) _ E) as X. cbn [snd] in X.
  destruct X as [W I]. split; [destruct I; repeat split; assumption|]. exists C. cbv zeta.
  rewrite (si_sn _ _ _ I), (si_Lp _ _ _ I). split; [exact RC|]. destruct W. rewrite <- (si_Lp _ _ _ I).
  exact (conj wi_C0 (conj wi_Lp0 (conj wi_Lnz0 (conj wi_Li0 (conj wi_Flag0 wi_Pattern0))))).
Qed.

Theorem C77_index_fixed (A : Arith) amd (u : user (car A)) l codes q : 0 <= u_n u -> 0 <= u_m u -> (u_eqs u <> None -> 0 <= u_p u) ->
  session A amd u l = Ok (codes, q) -> exists q0, setup A amd u = Ok q0 /\ kept q0 q /\ scratch q.
Proof.
  intros H1 H2 H3 E. unfold session in E. destruct (setup A amd u) as [q0| |] eqn:E0; cbn [bind] in E; try discriminate.
  exists q0. split; [reflexivity|]. apply (kept_calls A q0 l codes q); [|exact E]. apply (setup_range A amd u H1 H2 H3). exact E0.
Qed.

Lemma dense_conv_dims (A : Arith) o m n p : pw (dense_conv A o m n p) (fun M => sn M = n /\ sm M = m).
Proof.
  unfold dense_conv, densetosparse, densetosparse_ROWMAJOR. destruct (_ =? _); cbv zeta.
  - apply pw_skip. intros Ap _. apply pw_skip. intros [Ap1 c1] _. apply pw_skip. intros [[Ai Ax] c2] _. apply pw_ok. auto.
  - apply pw_skip. intros Ap _. apply pw_skip. intros [Ap1 c1] _. apply pw_skip. intros [Ap2 [[Ai Ax] c2]] _. apply pw_ok. auto.
Qed.

Theorem C77_index_fixed_dense (A : Arith) amd n m p Ppr Apr Gpr c h b Permut o q0 l codes q : 0 <= n -> 0 <= m -> 0 <= p ->
  QP_SETUP_dense A amd n m p Ppr Apr Gpr c h b Permut o = Ok q0 -> run_calls A q0 l = Ok (codes, q) -> kept q0 q /\ scratch q.
Proof.
  intros H1 H2 H3 E0 E. apply (kept_calls A q0 l codes q); [|exact E]. revert E0. revert q0 E.
  enough (X : pw (QP_SETUP_dense A amd n m p Ppr Apr Gpr c h b Permut o) (fun q => exists C, rd (k_Lp (q_kkt q)) (sn (k_mat (q_kkt q))) = Ok C /\ work_ints A (sn (k_mat (q_kkt q))) C (q_kkt q))).
  { intros q0 _ E0. apply (X _ E0). }
  unfold QP_SETUP_dense. apply pw_bind. apply (pw_mono _ (fun AM => match AM with Some M => 0 <= sm M | None => True end)).
  - destruct Apr, b; try (apply pw_ok; exact I). destruct (negb _); [|apply pw_ok; exact I].
    apply pw_bind. eapply pw_mono; [apply dense_conv_dims|]. intros M [_ E1]. apply pw_ok. lia.
  - intros AM HA. apply pw_bind. eapply pw_mono; [apply dense_conv_dims|]. intros P [E1 _].
    apply pw_bind. eapply pw_mono; [apply dense_conv_dims|]. intros G [_ E2]. apply setup_core_range; auto; lia.
Qed.

(** A signed integer type that holds [M] holds everything stored, provided [M] is at least the order of the KKT matrix,
    the number of its entries, and one more than the size of a dense triangular factor. *)
Theorem C77_type (A : Arith) amd u l codes q M : div_ok A -> valid_user amd u -> session A amd u l = Ok (codes, q) ->
  u_N u <= M -> u_cap u <= M -> u_N u * (u_N u - 1) <= 2 * (M - 1) ->
  let k := q_kkt q in let N := u_N u in
  cells (N + 1) (-M - 1) M (jc (k_mat k)) /\ (exists e, rd (jc (k_mat k)) N = Ok e /\ cells e (-M - 1) M (ir (k_mat k))) /\
  cells N (-M - 1) M (k_P k) /\ cells N (-M - 1) M (k_Pinv k) /\ cells N (-M - 1) M (k_Parent k) /\ cells (N + 1) (-M - 1) M (k_Lp k) /\
  within (-M - 1) M (k_Lnz k) /\ within (-M - 1) M (k_Li k) /\ within (-M - 1) M (k_Flag k) /\ within (-M - 1) M (k_Pattern k).
Proof.
  intros Hdiv V E H1 H2 H3 k N. destruct (C77_ranges A amd u l codes q Hdiv V E) as [C [Q1 Q2 [e [Q3 Q4]] Q5 Q6 Q7 Q8 [Q9 [Q10 Q11]] Q12 Q13 Q14 Q15]].
  assert (HN : 1 <= u_N u).
  { pose proof (vu_n _ _ V). pose proof (vu_m _ _ V). unfold u_N, u_pe. destruct (u_eqs u) as [[[[a b] c] d]|] eqn:Ee; [|lia].
    pose proof (proj1 (vu_A _ _ V _ _ _ _ Ee)). lia. }
  assert (G : forall len lo hi a, -M - 1 <= lo -> hi <= M -> cells len lo hi a -> cells len (-M - 1) M a).
  { intros len lo hi a X1 X2 H i Hi. destruct (H i Hi) as [z [X3 X4]]. exists z. split; [exact X3|lia]. }
  assert (W : forall lo hi a, -M - 1 <= lo -> hi <= M -> within lo hi a -> within (-M - 1) M a).
  { intros lo hi a X1 X2 H i z X. specialize (H i z X). lia. }
  split; [eapply G; [| |exact Q2]; lia|]. split; [exists e; split; [exact Q3|eapply G; [| |exact Q4]; lia]|].
  split; [eapply G; [| |exact Q5]; lia|]. split; [eapply G; [| |exact Q6]; lia|]. split; [eapply G; [| |exact Q7]; lia|].
  split; [eapply G; [| |exact Q8]; lia|]. split; [eapply W; [| |exact Q12]; lia|]. split; [eapply W; [| |exact Q13]; lia|].
  split; [eapply W; [| |exact Q14]; lia|]. eapply W; [| |exact Q15]; lia.
Qed.

(** The bounds are met by the problem of the repository's demo, for 32-bit integers already, through any calls. *)
Lemma C77_case amd l : quiet_calls RA (demo RA) l ->
  valid_user amd (demo RA) /\ (exists codes q, session RA amd (demo RA) l = Ok (codes, q)) /\
  u_N (demo RA) <= 2^31 - 1 /\ u_cap (demo RA) <= 2^31 - 1 /\ u_N (demo RA) * (u_N (demo RA) - 1) <= 2 * (2^31 - 1 - 1).
Proof.
  intros Hq. split; [apply demo_valid|]. split; [|vm_compute; intuition discriminate].
  destruct (session_ok RA amd (demo RA) l Rpos Safe_R (demo_valid RA amd) Hq) as [q0 [q [B [r [_ [_ [E _]]]]]]]. eauto.
Qed.

Print Assumptions C77_ranges.
Print Assumptions C77_index_fixed.
Print Assumptions C77_index_fixed_dense.
Print Assumptions C77_type.
