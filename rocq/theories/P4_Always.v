(** Properties C10, C24 and C44: what every run does, whatever the arguments (valid or not), in any
    arithmetic.  A run that performs an undefined operation has no result to speak about. *)
From Coq Require Import ZArith Reals List Lia Lra Bool.
From RecordUpdate Require Import RecordUpdate.
From Verif Require Import Res Partial Arith Lists MSparse Csc SemVec MLdl MSolver Iter SafeInst Session Spec QpSpec Api Demo.
Import ListNotations.
Open Scope Z_scope.
Open Scope res_scope.

(** ** Proof: a frame and the flag through every routine *)

Section Always.
Variable A : Arith.
Notation F := (car A).

(** Nothing of the caller's data and not the flag changes. *)
Definition keeps (q q' : qp F) : Prop := frame A q q' /\ Flag (q_stats q') = Flag (q_stats q).

(** Nor the point, or the iteration counter. *)
Definition still (q q' : qp F) : Prop := keeps q q' /\
  q_x q' = q_x q /\ q_y q' = q_y q /\ q_z q' = q_z q /\ q_s q' = q_s q /\
  IterationCount (q_stats q') = IterationCount (q_stats q).

Lemma keeps_trans q1 q2 q3 : keeps q1 q2 -> keeps q2 q3 -> keeps q1 q3.
Proof. intros [H1 H2] [H3 H4]. split; [eapply frame_trans; eauto|congruence]. Qed.

Lemma still_trans q1 q2 q3 : still q1 q2 -> still q2 q3 -> still q1 q3.
Proof.
  intros [H1 [H2 [H3 [H4 [H5 H6]]]]] [K1 [K2 [K3 [K4 [K5 K6]]]]].
  split; [eapply keeps_trans; eauto|]. repeat (split; [congruence|]). congruence.
Qed.

Lemma kkt_numeric_n (k : kkt F) : pw (kkt_numeric A k) (fun r => fst r = sn (k_mat k) /\ k_P (snd r) = k_P k).
Proof.
  unfold kkt_numeric. apply pw_skip. intros [d w] E. unfold LDL_numeric in E. apply pw_ok. cbn.
  destruct (for_ 0 _ _ _) as [w'| |] in E; cbn [bind] in E; try discriminate. injection E as <- _. auto.
Qed.

Ltac pok := apply pw_ok.
Ltac remains := split; [split; [split; reflexivity|reflexivity]|repeat (split; [reflexivity|]); reflexivity].
Ltac kept := split; [split; reflexivity|reflexivity].
(** Opens the next bind: matrices of tuples are split. *)
Ltac pstep :=
  match goal with
  | |- pw (bind _ _) _ => apply pw_skip; let x := fresh "x" in let E := fresh "E" in intros x E; cbv zeta beta
  | |- pw (let '(_, _) := ?x in _) _ => destruct x
  | |- pw (if ?b then _ else _) _ => destruct b
  end.

Lemma do_form_ds_still q k : pw (do_form_ds A q k) (still q).
Proof. unfold do_form_ds. repeat pstep. pok. remains. Qed.
Lemma do_update_kkt_still q : pw (do_update_kkt A q) (still q).
Proof. unfold do_update_kkt. repeat pstep. pok. remains. Qed.
Lemma do_update_b_still q : pw (do_update_b A q) (still q).
Proof. unfold do_update_b. repeat pstep. pok. remains. Qed.

Lemma kktsolve_1_still q : pw (kktsolve_1 A q) (fun r => fst r = true /\ still q (snd r)).
Proof.
  unfold kktsolve_1. apply pw_bind. eapply pw_mono; [apply kkt_numeric_n|]. intros [d k] [H1 H2]. cbn [fst snd] in *.
  subst d. rewrite Z.eqb_refl. repeat pstep. pok. cbn [fst snd]. split; auto.
  split; [split; [split; try reflexivity; exact H2|reflexivity]|repeat (split; [reflexivity|]); reflexivity].
Qed.

Lemma kktsolve_2_still q : pw (kktsolve_2 A q) (still q).
Proof.
  unfold kktsolve_2. apply pw_skip. intros rk _. apply pw_bind.
  apply (pw_mono _ (fun k => k_P k = k_P (q_kkt q))).
  - destruct (negb _); [|pok; reflexivity]. apply pw_bind. eapply pw_mono; [apply kkt_numeric_n|].
    intros [d k] [_ H]. pok. exact H.
  - intros k Hk. repeat pstep. pok.
    split; [split; [split; try reflexivity; exact Hk|reflexivity]|repeat (split; [reflexivity|]); reflexivity].
Qed.

Lemma computeresiduals_still q : pw (computeresiduals A q) (still q).
Proof.
  unfold computeresiduals. pstep. pstep. apply pw_skip. intros rx _. pstep. pstep. apply pw_bind.
  apply (pw_mono _ (still q)).
  - pstep; [repeat pstep; pok; remains|pok; remains].
  - intros q1 H. repeat pstep. pok. eapply still_trans; [exact H|]. remains.
Qed.

Lemma predictor_branch_still q : pw (predictor_branch A q) (fun r => fst r = true /\ still q (snd r)).
Proof.
  unfold predictor_branch. apply pw_bind. eapply pw_mono; [apply do_form_ds_still|]. intros q1 H1.
  apply pw_bind. eapply pw_mono; [apply do_update_kkt_still|]. intros q2 H2.
  apply pw_bind. eapply pw_mono; [apply do_update_b_still|]. intros q3 H3.
  apply pw_bind. eapply pw_mono; [apply kktsolve_1_still|]. intros [ok q4] [Hok H4]. cbn [fst snd] in *. subst ok.
  pstep. destruct x as [ap ad]. cbv zeta. pstep.
  apply pw_bind. eapply pw_mono; [apply do_form_ds_still|]. intros q5 H5.
  apply pw_bind. eapply pw_mono; [apply do_update_b_still|]. intros q6 H6.
  pok. cbn [fst snd]. split; auto.
  eapply still_trans; [exact H1|]. eapply still_trans; [exact H2|]. eapply still_trans; [exact H3|].
  eapply still_trans; [exact H4|]. eapply still_trans; [|eapply still_trans; [exact H5|eapply still_trans; [exact H6|remains]]].
  remains.
Qed.

Lemma centering_branch_still q : pw (centering_branch A q) (still q).
Proof.
  unfold centering_branch. cbv zeta. apply pw_bind. eapply pw_mono; [apply do_form_ds_still|]. intros q1 H1.
  apply pw_bind. eapply pw_mono; [apply do_update_kkt_still|]. intros q2 H2.
  apply pw_bind. eapply pw_mono; [apply do_update_b_still|]. intros q3 H3.
  pok. eapply still_trans; [|eapply still_trans; [exact H1|eapply still_trans; [exact H2|eapply still_trans; [exact H3|remains]]]].
  remains.
Qed.

(** [x'] is [x] moved by [alpha] times [d] in its first [n] cells. *)
Definition moved_by (n : Z) (alpha : F) (d x x' : arr F) : Prop :=
  (forall i, 0 <= i < n -> exists xi di, rd x i = Ok xi /\ rd d i = Ok di /\ rd x' i = Ok (fadd A xi (fmul A di alpha))) /\
  (forall i, ~ (0 <= i < n) -> rd x' i = rd x i).

Lemma updatevariables_moved x d alpha n : pw (updatevariables A x d alpha n) (moved_by n alpha d x).
Proof.
  unfold updatevariables.
  apply (pw_for (fun k x' => (forall i, 0 <= i < k -> exists xi di, rd x i = Ok xi /\ rd d i = Ok di /\
            rd x' i = Ok (fadd A xi (fmul A di alpha))) /\ (forall i, ~ (0 <= i < k) -> rd x' i = rd x i))).
  - split; [intros; lia|auto].
  - intros k x1 Hk [H1 H2]. apply pw_skip. intros xi E1. apply pw_skip. intros di E2. apply pw_wr.
    intros x2 _ _ H3. rewrite H2 in E1 by lia. split.
    + intros i Hi. rewrite H3. destruct (Z.eqb_spec i k); [subst; eauto|]. apply H1. lia.
    + intros i Hi. rewrite H3. destruct (Z.eqb_spec i k); [lia|]. apply H2. lia.
  - intros x1 [H1 H2]. split; intros i Hi; [apply H1|apply H2]; lia.
Qed.

(** The four blocks of the point move along the direction left in the handle, with the step lengths
    left in the statistics; the counter goes up by one. *)
Definition stepped (q q' : qp F) : Prop :=
  moved_by (q_n q) (alpha_p (q_stats q')) (q_delta_x q') (q_x q) (q_x q') /\
  moved_by (q_m q) (alpha_p (q_stats q')) (q_delta_s q') (q_s q) (q_s q') /\
  moved_by (q_p q) (alpha_d (q_stats q')) (q_delta_y q') (q_y q) (q_y q') /\
  moved_by (q_m q) (alpha_d (q_stats q')) (q_delta_z q') (q_z q) (q_z q') /\
  IterationCount (q_stats q') = IterationCount (q_stats q) + 1.

Lemma take_step_always q : pw (take_step A q) (fun q' => keeps q q' /\ stepped q q').
Proof.
  unfold take_step. apply pw_bind. eapply pw_mono; [apply kktsolve_2_still|].
  intros q1 [H1 [H2 [H3 [H4 [H5 H6]]]]].
  apply pw_skip. intros [ap ad] _. cbv zeta.
  apply pw_bind. eapply pw_mono; [apply updatevariables_moved|]. intros x' Hx.
  apply pw_bind. eapply pw_mono; [apply updatevariables_moved|]. intros y' Hy.
  apply pw_bind. eapply pw_mono; [apply updatevariables_moved|]. intros s' Hs.
  apply pw_bind. eapply pw_mono; [apply updatevariables_moved|]. intros z' Hz.
  pok. split; [eapply keeps_trans; [exact H1|kept]|].
  destruct H1 as [HF _]. rewrite (fr_n _ _ _ HF) in Hx. rewrite (fr_p _ _ _ HF) in Hy.
  rewrite (fr_m _ _ _ HF) in Hs, Hz. rewrite H2 in Hx. rewrite H3 in Hy. rewrite H4 in Hz. rewrite H5 in Hs.
  unfold stepped. cbn. rewrite H6. auto 10.
Qed.

(** One pass: stop with QP_OPTIMAL at the same point, or step and keep the flag. *)
Lemma solve_iter_always q : pw (solve_iter A q) (fun r => frame A q (fst r) /\
  if snd r then Flag (q_stats (fst r)) = QP_OPTIMAL /\ q_x (fst r) = q_x q /\ q_y (fst r) = q_y q /\
                q_z (fst r) = q_z q /\ q_s (fst r) = q_s q /\ IterationCount (q_stats (fst r)) = IterationCount (q_stats q)
  else Flag (q_stats (fst r)) = Flag (q_stats q) /\ stepped q (fst r)).
Proof.
  unfold solve_iter. apply pw_bind. eapply pw_mono; [apply computeresiduals_still|]. intros q1 H1.
  pstep. destruct x as [fv temp]. cbv zeta. pstep. pstep. destruct x0.
  - pok. cbn [fst snd]. destruct H1 as [[H1 _] H2]. split; [|split; [reflexivity|exact H2]].
    eapply frame_trans; [exact H1|]. split; reflexivity.
  - pstep. pstep. pstep. apply pw_bind.
    match goal with |- pw _ _ => apply (pw_mono _ (fun r => fst r = true /\ still q (snd r))) end.
    + match goal with |- context[if ?b then _ else _] => destruct b end.
      * eapply pw_mono; [apply predictor_branch_still|]. intros [ok q2] [Hok H2]. split; auto. cbn [snd] in *.
        eapply still_trans; [exact H1|]. eapply still_trans; [|exact H2]. remains.
      * apply pw_bind. eapply pw_mono; [apply centering_branch_still|]. intros q2 H2. pok. cbn [fst snd]. split; auto.
        eapply still_trans; [exact H1|]. eapply still_trans; [|exact H2]. remains.
    + intros [ok q2] [Hok [K1 [Kx [Ky [Kz [Ks Ki]]]]]]. cbn [fst snd] in *. subst ok. apply pw_bind.
      eapply pw_mono; [apply take_step_always|]. intros q3 [H3 H4]. pok. cbn [fst snd].
      pose proof (keeps_trans _ _ _ K1 H3) as [J1 J2]. split; [exact J1|]. split; [exact J2|].
      destruct K1 as [HF _]. unfold stepped in *.
      rewrite (fr_n _ _ _ HF), (fr_m _ _ _ HF), (fr_p _ _ _ HF), Kx, Ky, Kz, Ks, Ki in H4. exact H4.
Qed.

Lemma QP_SOLVE_always q : pw (QP_SOLVE A q) (fun r => frame A q (snd r) /\ fst r = Flag (q_stats (snd r)) /\
  (fst r = Flag (q_stats q) \/ fst r = QP_OPTIMAL \/ fst r = QP_MAXIT)).
Proof.
  unfold QP_SOLVE. destruct (Z.eqb_spec (Flag (q_stats q)) QP_KKTFAIL) as [E|E].
  - pok. cbn [fst snd]. split; [apply frame_refl|auto].
  - apply pw_bind.
    apply (pw_for_inv (fun st => frame A q (fst st) /\
       (Flag (q_stats (fst st)) = Flag (q_stats q) \/ Flag (q_stats (fst st)) = QP_OPTIMAL))).
    + split; [apply frame_refl|auto].
    + intros i [q1 stopped] _ [H1 H2]. cbn [fst] in *. destruct stopped; [pok; auto|].
      eapply pw_mono; [apply solve_iter_always|]. intros [q2 b] [K1 K2]. cbn [fst snd] in *.
      split; [eapply frame_trans; eauto|]. destruct b; [right; apply K2|]. destruct K2 as [K2 _]. rewrite K2. exact H2.
    + intros [q1 b] [H1 H2]. cbn [fst] in *. cbv zeta. pok. cbn [fst snd]. destruct (_ =? _).
      * split; [eapply frame_trans; [exact H1|split; reflexivity]|]. cbn. auto.
      * split; auto. split; auto. tauto.
Qed.

Lemma run_calls_always l : forall q, Flag (q_stats q) <> QP_KKTFAIL ->
  pw (run_calls A q l) (fun r => frame A q (snd r) /\ Flag (q_stats (snd r)) <> QP_KKTFAIL /\ ~ In QP_KKTFAIL (fst r)).
Proof.
  induction l as [|[o|] l IH]; intros q Hf; cbn [run_calls].
  - pok. cbn. split; [apply frame_refl|auto].
  - eapply pw_mono; [apply IH; exact Hf|]. intros r [H1 H2]. split; auto. destruct H1. split; assumption.
  - apply pw_bind. eapply pw_mono; [apply QP_SOLVE_always|]. intros [code q1] [H1 [H2 H3]]. cbn [fst snd] in *.
    assert (Hc : code <> QP_KKTFAIL) by (destruct H3 as [->|[->| ->]]; [exact Hf|discriminate|discriminate]).
    apply pw_bind. eapply pw_mono; [apply IH; congruence|]. intros [codes q2] [G1 [G2 G3]]. cbn [fst snd] in *.
    pok. cbn [fst snd]. split; [eapply frame_trans; eauto|]. split; auto. cbn. intros [X|X]; auto.
Qed.

(** *** Setup *)

Lemma ldlinitialsolve_always k delta : pw (ldlinitialsolve A k delta) (fun r => fst (fst r) = true /\ k_P (snd (fst r)) = k_P k).
Proof.
  unfold ldlinitialsolve. apply pw_skip. intros [[[[Lp Parent] Lnz] Fl] Pinv] _. pstep. pstep.
  apply pw_bind. eapply pw_mono; [apply kkt_numeric_n|]. intros [d k1] [H1 H2]. cbn [fst snd] in *.
  apply pw_skip. intros [Lti Ltp] _. cbv zeta. subst d. cbn [k_mat]. cbn. rewrite Z.eqb_refl.
  repeat pstep. pok. cbn. cbn in H2. auto.
Qed.

Lemma kkt_initialize_always q : pw (kkt_initialize A q) (fun r => fst r = true /\ keeps q (snd r)).
Proof.
  unfold kkt_initialize. cbv zeta. pstep. pstep. pstep. apply pw_bind. eapply pw_mono; [apply ldlinitialsolve_always|].
  intros [[ok k] delta] [H1 H2]. cbn [fst snd] in *. subst ok. pstep. pstep. pstep. pstep. pstep. destruct x6 as [mn mx].
  pstep. pstep. pok. cbn [fst snd]. split; auto. split; [|reflexivity]. split; try reflexivity. exact H2.
Qed.

Lemma setup_core_always amd n m p_arg P G AM c h b sd Permut :
  pw (setup_core A amd n m p_arg P G AM c h b sd Permut) (fun q =>
     Flag (q_stats q) = QP_FATAL /\ q_P q = P /\ q_G q = G /\ q_A q = AM /\ q_c q = c /\ q_h q = h /\ q_b q = b /\
     (forall Pm, Permut = Some Pm -> k_P (q_kkt q) = Pm) /\
     q_n q = n /\ q_m q = m /\ q_sigma_d q = sd /\ q_p q = match AM with Some _ => p_arg | None => 0 end).
Proof.
  unfold setup_core. cbv zeta. pstep. pstep.
  destruct AM as [M|].
  - pstep. apply pw_skip. intros [Pm r] Er. apply pw_bind. eapply pw_mono; [apply kkt_initialize_always|].
    intros [ok q] [Hok [HF HFl]]. cbn [fst snd] in *. subst ok. pok.
    destruct HF as [Hn Hm Hp Hsd HP Hc HG Hh HA Hb HAt HGt HkP]. cbn in *.
    repeat (split; [assumption|]). split; [|auto].
    intros Pm' E'. subst Permut. cbn in Er. injection Er as -> _. exact HkP.
  - pstep. apply pw_skip. intros [Pm r] Er. apply pw_bind. eapply pw_mono; [apply kkt_initialize_always|].
    intros [ok q] [Hok [HF HFl]]. cbn [fst snd] in *. subst ok. pok.
    destruct HF as [Hn Hm Hp Hsd HP Hc HG Hh HA Hb HAt HGt HkP]. cbn in *.
    repeat (split; [assumption|]). split; [|auto].
    intros Pm' E'. subst Permut. cbn in Er. injection Er as -> _. exact HkP.
Qed.

(** *** No inequality *)

Lemma multiply_len M x y st : pw (SparseMatrixMultiply A M x y st) (fun y' => zlen y' = zlen y).
Proof.
  unfold SparseMatrixMultiply. apply pw_bind. apply (pw_mono _ (fun y' => zlen y' = zlen y)).
  - destruct st; [|pok; auto]. apply (pw_for_inv (fun y' => zlen y' = zlen y)); auto.
    intros i y1 _ H. apply pw_wr. intros; lia.
  - intros y1 H1. apply (pw_for_inv (fun y' => zlen y' = zlen y)); auto. intros i y2 _ H2. pstep. pstep.
    apply (pw_for_inv (fun y' => zlen y' = zlen y)); auto. intros j y3 _ H3. do 4 pstep. apply pw_wr. intros; lia.
Qed.

Lemma kkt_initialize_m0 q : q_m q <= 0 -> pw (kkt_initialize A q) (fun _ => False).
Proof.
  intros Hm. unfold kkt_initialize. cbv zeta. pstep. pstep. pstep. apply pw_bind. eapply pw_mono; [apply ldlinitialsolve_always|].
  intros [[ok k] delta] [H1 H2]. cbn [fst snd] in *. subst ok. pstep. pstep. apply pw_bind.
  eapply pw_mono; [apply multiply_len|]. intros zi Hz. apply pw_bind.
  apply (pw_mono _ (fun z' => z' = zi)).
  - unfold updatevariables. rewrite for_nil by lia. pok. reflexivity.
  - intros z' ->. apply pw_bind. intros r Er. exfalso. unfold findminmax in Er.
    destruct (rd zi 0) as [v| |] eqn:Erd; cbn [bind] in Er; try discriminate.
    apply rd_ok_range in Erd. rewrite Hz in Erd. unfold malloc, zlen in Erd. rewrite repeat_length in Erd. lia.
Qed.

Lemma setup_core_m0 amd n m p_arg P G AM c h b sd Permut : m <= 0 ->
  pw (setup_core A amd n m p_arg P G AM c h b sd Permut) (fun _ => False).
Proof.
  intros Hm. unfold setup_core. cbv zeta. pstep. pstep. destruct AM as [M|].
  - pstep. apply pw_skip. intros [Pm r] Er. apply pw_bind. eapply pw_mono; [apply kkt_initialize_m0; exact Hm|]. intros ? [].
  - pstep. apply pw_skip. intros [Pm r] Er. apply pw_bind. eapply pw_mono; [apply kkt_initialize_m0; exact Hm|]. intros ? [].
Qed.

Lemma QP_SETUP_always amd u : pw (setup A amd u) (fun q =>
  Flag (q_stats q) = QP_FATAL /\
  (jc (q_P q) = u_Pjc u /\ ir (q_P q) = u_Pir u /\ pr (q_P q) = u_Ppr u) /\
  (jc (q_G q) = u_Gjc u /\ ir (q_G q) = u_Gir u /\ pr (q_G q) = u_Gpr u) /\
  q_c q = u_c u /\ q_h q = u_h u /\
  (forall M, q_A q = Some M -> u_Ajc u = Some (jc M) /\ u_Air u = Some (ir M) /\ u_Apr u = Some (pr M)) /\
  (forall bb, q_b q = Some bb -> u_b u = Some bb) /\
  (forall Pm, u_perm u = Some Pm -> k_P (q_kkt q) = Pm)).
Proof.
  unfold setup, QP_SETUP. apply pw_bind.
  apply (pw_mono _ (fun AM => forall M, AM = Some M -> u_Ajc u = Some (jc M) /\ u_Air u = Some (ir M) /\ u_Apr u = Some (pr M))).
  - destruct (u_Apr u) as [apr|]; [|pok; discriminate]. destruct (u_Ajc u) as [ajc|]; [|pok; discriminate].
    destruct (u_Air u) as [air|]; [|pok; discriminate]. destruct (u_b u) as [bb|]; [|pok; discriminate].
    destruct (negb _); [|pok; discriminate]. pstep. pok. intros M EM. injection EM as <-. cbn. auto.
  - intros AM HAM. pstep. pstep. eapply pw_mono; [apply setup_core_always|].
    intros q [H1 [H2 [H3 [H4 [H5 [H6 [H7 [H8 _]]]]]]]]. rewrite H2, H3, H4, H5, H6, H7. cbn.
    split; auto. split; auto. split; auto. split; auto. split; auto. split; auto. split; auto.
    intros bb E'. destruct AM; congruence.
Qed.

Lemma QP_SETUP_dense_always amd n m p Ppr Apr Gpr c h b Permut ordering :
  pw (QP_SETUP_dense A amd n m p Ppr Apr Gpr c h b Permut ordering) (fun q =>
  Flag (q_stats q) = QP_FATAL /\ q_c q = c /\ q_h q = h /\
  (forall bb, q_b q = Some bb -> b = Some bb) /\ (forall Pm, Permut = Some Pm -> k_P (q_kkt q) = Pm)).
Proof.
  unfold QP_SETUP_dense. apply pw_skip. intros AM _. pstep. pstep. eapply pw_mono; [apply setup_core_always|].
  intros q [H1 [H2 [H3 [H4 [H5 [H6 [H7 [H8 _]]]]]]]]. rewrite H5, H6, H7. repeat (split; [auto; fail|]).
  split; auto. intros bb E'. destruct AM; congruence.
Qed.

End Always.

(** *** Verbosity *)

Section Loud.
Variable A : Arith.
Notation F := (car A).

Definition with_verbose (v : Z) (q : qp F) : qp F := q <| q_options := (q_options q) <| verbose := v |> |>.

(** [f] does not look at the verbosity. *)
Definition silent (f : qp F -> res (qp F)) : Prop :=
  forall q v, f (with_verbose v q) = bind (f q) (fun q' => Ok (with_verbose v q')).
Definition silent2 {T} (f : qp F -> res (T * qp F)) : Prop :=
  forall q v, f (with_verbose v q) = bind (f q) (fun r => Ok (fst r, with_verbose v (snd r))).

Lemma bindA {T U V} (m : res T) (f : T -> res U) (g : U -> res V) : bind (bind m f) g = bind m (fun x => bind (f x) g).
Proof. destruct m; reflexivity. Qed.

Ltac bsplit := repeat (rewrite ?bindA; match goal with
  | |- bind (if ?b then _ else _) _ = _ => destruct b; cbn [bind]
  | |- bind ?m _ = bind ?m _ => destruct m as [?x| |]; cbn [bind]; [|reflexivity|reflexivity]
  | |- bind (let '(_, _) := ?x in _) _ = _ => destruct x; cbn
  | |- (let '(_, _) := ?x in _) = _ => destruct x; cbn
  | |- (if ?b then _ else _) = _ => destruct b; cbn [bind]
  end); try reflexivity.

Lemma do_form_ds_silent k : silent (fun q => do_form_ds A q k).
Proof. intros q v. unfold do_form_ds. cbn. bsplit. Qed.
Lemma do_update_kkt_silent : silent (do_update_kkt A).
Proof. intros q v. unfold do_update_kkt. cbn. bsplit. Qed.
Lemma do_update_b_silent : silent (do_update_b A).
Proof. intros q v. unfold do_update_b. cbn. bsplit. Qed.
Lemma kktsolve_1_silent : silent2 (kktsolve_1 A).
Proof. intros q v. unfold kktsolve_1. cbn. bsplit. Qed.
Lemma kktsolve_2_silent : silent (kktsolve_2 A).
Proof. intros q v. unfold kktsolve_2. cbn. bsplit. Qed.
Lemma computeresiduals_silent : silent (computeresiduals A).
Proof. intros q v. unfold computeresiduals. cbn. bsplit; cbn; bsplit. Qed.

Lemma predictor_branch_silent : silent2 (predictor_branch A).
Proof.
  intros q v. unfold predictor_branch.
  rewrite (do_form_ds_silent QP_PURE_NEWTON_STEP). bsplit.
  rewrite do_update_kkt_silent. bsplit. rewrite do_update_b_silent. bsplit. rewrite kktsolve_1_silent, !bindA.
  destruct (kktsolve_1 A x1) as [[ok q4]| |]; cbn [bind]; try reflexivity. cbn [fst snd]. destruct ok; [|reflexivity]. cbn. bsplit.
  match goal with |- bind (do_form_ds A ?a ?k) _ = bind (bind (do_form_ds A ?b ?k) _) _ => change a with (with_verbose v b) end.
  rewrite (do_form_ds_silent QP_CENTERING_CORRECTOR_STEP). bsplit. rewrite do_update_b_silent. bsplit.
Qed.

Lemma centering_branch_silent : silent (centering_branch A).
Proof.
  intros q v. unfold centering_branch. cbv zeta.
  match goal with |- bind (do_form_ds A ?a ?k) _ = bind (bind (do_form_ds A ?b ?k) _) _ => change a with (with_verbose v b) end.
  rewrite (do_form_ds_silent QP_CENTERING_STEP). bsplit. rewrite do_update_kkt_silent. bsplit. rewrite do_update_b_silent. bsplit.
Qed.

Lemma take_step_silent : silent (take_step A).
Proof.
  intros q v. unfold take_step. rewrite kktsolve_2_silent. bsplit. cbn. bsplit.
Qed.

(** One pass, when the progress line can be printed. *)
Lemma solve_iter_silent q v r r' : solve_iter A q = Ok r -> solve_iter A (with_verbose v q) = Ok r' ->
  r' = (with_verbose v (fst r), snd r).
Proof.
  unfold solve_iter. rewrite computeresiduals_silent. destruct (computeresiduals A q) as [q1| |]; cbn [bind]; try discriminate.
  cbn. destruct (obj_value A (q_P q1) (q_c q1) (q_x q1) (q_temp q1)) as [[fv temp]| |]; cbn [bind]; try discriminate.
  set (q2 := q1 <| q_temp := temp |> <| q_stats := q_stats q1 <| fval := Some fv |> |>).
  change (with_verbose v q1 <| q_temp := temp |> <| q_stats := q_stats q1 <| fval := Some fv |> |>) with (with_verbose v q2).
  destruct (print_line A q2) as [u1| |]; cbn [bind]; try discriminate.
  destruct (print_line A (with_verbose v q2)) as [u2| |]; cbn [bind]; try discriminate.
  change (stop_test A (with_verbose v q2)) with (stop_test A q2).
  destruct (stop_test A q2) as [[|]| |]; cbn [bind]; try discriminate.
  { intros E E'. injection E as <-. injection E' as <-. reflexivity. }
  destruct (formlambda A (q_lambda q1) (q_s q1) (q_z q1) (q_m q1)) as [lambda| |]; cbn [bind]; try discriminate.
  destruct (innerproduct A lambda lambda (q_m q1)) as [ip| |]; cbn [bind]; try discriminate.
  destruct (fdiv A ip (fofZ A (q_m q1))) as [mu| |]; cbn [bind]; try discriminate.
  set (q3 := q2 <| q_lambda := lambda |> <| q_mu := Some mu |>).
  match goal with |- _ -> ?b = _ -> _ => match b with context[predictor_branch A ?x] => change x with (with_verbose v q3) end end.
  rewrite predictor_branch_silent, centering_branch_silent.
  assert (H : forall m : res (bool * qp F), bind m (fun x => let '(ok, q) := x in if ok : bool then q <- take_step A q;; Ok (q, false) else Ok (q, true)) = Ok r ->
     bind (bind m (fun r => Ok (fst r, with_verbose v (snd r)))) (fun x => let '(ok, q) := x in if ok : bool then q <- take_step A q;; Ok (q, false) else Ok (q, true)) = Ok r' ->
     r' = (with_verbose v (fst r), snd r)).
  { intros [[ok q4]| |]; cbn [bind]; try discriminate. cbn [fst snd]. destruct ok.
    - rewrite take_step_silent. destruct (take_step A q4) as [q5| |]; cbn [bind]; try discriminate.
      intros E E'. injection E as <-. injection E' as <-. reflexivity.
    - intros E E'. injection E as <-. injection E' as <-. reflexivity. }
  destruct (flt A (q_sigma_d q1) (sigma (q_options q1))); [apply H|].
  specialize (H (q4 <- centering_branch A q3;; Ok (true, q4))). intros E E'. apply H; auto.
  rewrite <- E'. destruct (centering_branch A q3); reflexivity.
Qed.

Lemma loop_silent k : forall i q v r r',
  let body := fun (_ : Z) (st : qp F * bool) => let '(q, stopped) := st in if stopped : bool then Ok (q, true) else solve_iter A q in
  forall b, forN k i body (q, b) = Ok r -> forN k i body (with_verbose v q, b) = Ok r' -> r' = (with_verbose v (fst r), snd r).
Proof.
  induction k as [|k IH]; intros i q v r r' body b; cbn [forN].
  - intros E E'. injection E as <-. injection E' as <-. reflexivity.
  - unfold body at 1 3. destruct b.
    + cbn [bind]. apply IH.
    + destruct (solve_iter A q) as [[q1 b1]| |] eqn:E1; cbn [bind]; try discriminate.
      destruct (solve_iter A (with_verbose v q)) as [[q2 b2]| |] eqn:E2; cbn [bind]; try discriminate.
      pose proof (solve_iter_silent _ _ _ _ E1 E2) as H. cbn [fst snd] in H. injection H as -> ->. apply IH.
Qed.

Lemma QP_SOLVE_silent q v c q1 c' q2 : QP_SOLVE A q = Ok (c, q1) -> QP_SOLVE A (with_verbose v q) = Ok (c', q2) ->
  c' = c /\ q2 = with_verbose v q1.
Proof.
  unfold QP_SOLVE. change (Flag (q_stats (with_verbose v q))) with (Flag (q_stats q)).
  change (maxit (q_options (with_verbose v q))) with (maxit (q_options q)).
  destruct (_ =? QP_KKTFAIL).
  { intros E E'. injection E as <- <-. injection E' as <- <-. auto. }
  unfold for_. match goal with |- bind ?a _ = _ -> bind ?b _ = _ -> _ => destruct a as [[q3 b3]| |] eqn:E1; destruct b as [[q4 b4]| |] eqn:E2 end;
    cbn [bind]; try discriminate.
  pose proof (loop_silent _ _ _ _ _ _ _ E1 E2) as H. cbn [fst snd] in H. injection H as -> ->.
  change (IterationCount (q_stats (with_verbose v q3))) with (IterationCount (q_stats q3)).
  change (maxit (q_options (with_verbose v q3))) with (maxit (q_options q3)).
  destruct (_ =? maxit _); intros E E'; injection E as <- <-; injection E' as <- <-; auto.
Qed.

End Loud.

(** ** Theorems *)

(** A handle as one of the two setup functions returns it. *)
Definition obtained (A : Arith) (q : qp (car A)) : Prop :=
  (exists amd u, setup A amd u = Ok q) \/
  (exists amd n m p Ppr Apr Gpr c h b Permut ordering,
     QP_SETUP_dense A amd n m p Ppr Apr Gpr c h b Permut ordering = Ok q).

(** C10: exit code 1 is never returned, by any sequence of calls on any handle from either setup. *)
Theorem C10_no_factorisation_failure (A : Arith) q l codes q' :
  obtained A q -> run_calls A q l = Ok (codes, q') ->
  Flag (q_stats q) = 3 /\ ~ In 1 codes /\ Flag (q_stats q') <> 1.
Proof.
  intros Ho Hr.
  assert (Hf : Flag (q_stats q) = 3).
  { destruct Ho as [[amd [u E]]|[amd [n [m [p [Ppr [Apr [Gpr [c [h [b [Permut [ordering E]]]]]]]]]]]]].
    - apply (QP_SETUP_always A amd u q E).
    - apply (QP_SETUP_dense_always A amd n m p Ppr Apr Gpr c h b Permut ordering q E). }
  split; auto. destruct (run_calls_always A l q ltac:(rewrite Hf; discriminate) _ Hr) as [_ [H2 H3]]. auto.
Qed.
Print Assumptions C10_no_factorisation_failure.

(** C24: after any sequence of calls the handle still sees the caller's arrays, unchanged. *)
Theorem C24_user_data_unchanged (A : Arith) amd u l codes q :
  session A amd u l = Ok (codes, q) ->
  (jc (q_P q) = u_Pjc u /\ ir (q_P q) = u_Pir u /\ pr (q_P q) = u_Ppr u) /\
  (jc (q_G q) = u_Gjc u /\ ir (q_G q) = u_Gir u /\ pr (q_G q) = u_Gpr u) /\
  q_c q = u_c u /\ q_h q = u_h u /\
  (forall M, q_A q = Some M -> u_Ajc u = Some (jc M) /\ u_Air u = Some (ir M) /\ u_Apr u = Some (pr M)) /\
  (forall bb, q_b q = Some bb -> u_b u = Some bb) /\
  (forall P, u_perm u = Some P -> k_P (q_kkt q) = P).
Proof.
  unfold session. destruct (setup A amd u) as [q0| |] eqn:E; cbn [bind]; try discriminate. intros Hr.
  pose proof (QP_SETUP_always A amd u q0 E) as [H1 H2].
  destruct (run_calls_always A l q0 ltac:(rewrite H1; discriminate) _ Hr) as [HF _]. cbn [snd] in HF.
  destruct HF as [Hn Hm Hp Hsd HP Hc HG Hh HA Hb HAt HGt HkP]. rewrite HP, HG, Hc, Hh, HA, Hb, HkP. exact H2.
Qed.
Print Assumptions C24_user_data_unchanged.

(** The dense entry point keeps c, h, b and the permutation by reference; its matrices are its own. *)
Theorem C24_user_data_unchanged_dense (A : Arith) amd n m p Ppr Apr Gpr c h b Permut ordering q l codes q' :
  QP_SETUP_dense A amd n m p Ppr Apr Gpr c h b Permut ordering = Ok q -> run_calls A q l = Ok (codes, q') ->
  q_c q' = c /\ q_h q' = h /\ (forall bb, q_b q' = Some bb -> b = Some bb) /\
  (forall P, Permut = Some P -> k_P (q_kkt q') = P) /\
  q_P q' = q_P q /\ q_G q' = q_G q /\ q_A q' = q_A q.
Proof.
  intros E Hr. pose proof (QP_SETUP_dense_always A amd n m p Ppr Apr Gpr c h b Permut ordering q E) as [H1 [H2 [H3 [H4 H5]]]].
  destruct (run_calls_always A l q ltac:(rewrite H1; discriminate) _ Hr) as [HF _]. cbn [snd] in HF.
  destruct HF as [Hn Hm Hp Hsd HP Hc HG Hh HA Hb HAt HGt HkP]. rewrite Hc, Hh, Hb, HkP, HP, HG, HA. auto 10.
Qed.
Print Assumptions C24_user_data_unchanged_dense.

(** C42: two solves from the same handle that differ in the verbosity only, both ending normally, give the
    same exit code, point, statistics and work arrays: the handles are equal up to that option. *)
Theorem C42_verbosity_irrelevant (A : Arith) (q : qp (car A)) v1 v2 c1 q1 c2 q2 :
  QP_SOLVE A (q <| q_options := (q_options q) <| verbose := v1 |> |>) = Ok (c1, q1) ->
  QP_SOLVE A (q <| q_options := (q_options q) <| verbose := v2 |> |>) = Ok (c2, q2) ->
  c2 = c1 /\ q2 = q1 <| q_options := (q_options q1) <| verbose := v2 |> |>.
Proof.
  intros E1 E2. apply (QP_SOLVE_silent A _ v2 _ _ _ _ E1). exact E2.
Qed.
Print Assumptions C42_verbosity_irrelevant.

(** C43: one pass of the loop either stops, leaving the point alone, or moves x and s by the primal and y
    and z by the dual step length times the direction, cell by cell, and changes no other cell. *)
Theorem C43_one_pass (A : Arith) (q q' : qp (car A)) stopped : solve_iter A q = Ok (q', stopped) ->
  if stopped then q_x q' = q_x q /\ q_y q' = q_y q /\ q_z q' = q_z q /\ q_s q' = q_s q else stepped A q q'.
Proof.
  intros E. pose proof (solve_iter_always A q _ E) as [_ H]. cbn [fst snd] in H. destruct stopped; tauto.
Qed.
Print Assumptions C43_one_pass.

(** The same for a call of QP_SOLVE limited to one iteration. *)
Theorem C43_one_iteration (A : Arith) (q q' : qp (car A)) c :
  maxit (q_options q) = 1 -> QP_SOLVE A q = Ok (c, q') ->
  (q_x q' = q_x q /\ q_y q' = q_y q /\ q_z q' = q_z q /\ q_s q' = q_s q) \/ stepped A q q'.
Proof.
  intros Hm. unfold QP_SOLVE. destruct (_ =? QP_KKTFAIL).
  { intros E. injection E as <- <-. auto. }
  rewrite Hm. unfold for_. cbn [Z.to_nat Z.sub]. change (Z.to_nat (1 - 0)) with 1%nat. cbn [forN].
  destruct (solve_iter A q) as [[q1 b]| |] eqn:E1; cbn [bind]; try discriminate.
  pose proof (C43_one_pass A q q1 b E1) as H. destruct (_ =? maxit _); intros E; injection E as <- <-; destruct b; auto.
Qed.
Print Assumptions C43_one_iteration.

(** C44: without inequalities no setup ever succeeds, whatever the other arguments. *)
Theorem C44_inequality_required (A : Arith) amd u q : u_m u <= 0 -> setup A amd u <> Ok q.
Proof.
  intros Hm E. unfold setup, QP_SETUP in E.
  match type of E with bind ?x _ = _ => destruct x as [AM| |]; cbn [bind] in E; try discriminate end.
  destruct (rd (u_Pjc u) (u_n u)) as [nzP| |]; cbn [bind] in E; try discriminate.
  destruct (rd (u_Gjc u) (u_n u)) as [nzG| |]; cbn [bind] in E; try discriminate.
  exact (setup_core_m0 A _ _ _ _ _ _ _ _ _ _ _ _ Hm _ E).
Qed.
Print Assumptions C44_inequality_required.

Theorem C44_inequality_required_dense (A : Arith) amd n m p Ppr Apr Gpr c h b Permut ordering q :
  m <= 0 -> QP_SETUP_dense A amd n m p Ppr Apr Gpr c h b Permut ordering <> Ok q.
Proof.
  intros Hm E. unfold QP_SETUP_dense in E.
  match type of E with bind ?x _ = _ => destruct x as [AM| |]; cbn [bind] in E; try discriminate end.
  destruct (dense_conv A ordering n n Ppr) as [P| |]; cbn [bind] in E; try discriminate.
  destruct (dense_conv A ordering m n Gpr) as [G| |]; cbn [bind] in E; try discriminate.
  exact (setup_core_m0 A _ _ _ _ _ _ _ _ _ _ _ _ Hm _ E).
Qed.
Print Assumptions C44_inequality_required_dense.

(** ** Cases *)

(** Sessions that end normally exist: the library's example with two solves and an option change, in
    exact arithmetic and in binary64. *)
Example C10_C24_case_R amd o : exists codes q, session RA amd (demo RA) [Solve RA; SetOptions RA o; Solve RA] = Ok (codes, q).
Proof.
  destruct (session_ok RA amd (demo RA) [Solve RA; SetOptions RA o; Solve RA] _ Safe_R (demo_valid RA amd)) as [q0 [q [B [r [H1 [H2 [H3 _]]]]]]].
  - left. discriminate.
  - eauto.
Qed.
Example C10_C24_case_F amd o : exists codes q, session FA amd (demo FA) [Solve FA; SetOptions FA o; Solve FA] = Ok (codes, q).
Proof.
  destruct (session_ok FA amd (demo FA) [Solve FA; SetOptions FA o; Solve FA] _ (Safe_total FA FA_total) (demo_valid FA amd)) as [q0 [q [B [r [H1 [H2 [H3 _]]]]]]].
  - left. discriminate.
  - eauto.
Qed.

(** Both verbosity levels run normally on the library's example. *)
Lemma C42_runs A ps amd u v : Safe A ps -> valid_user amd u -> u_pe u <> 0 ->
  exists q c1 q1, setup A amd u = Ok q /\ QP_SOLVE A (q <| q_options := (q_options q) <| verbose := v |> |>) = Ok (c1, q1).
Proof.
  intros SF V Hp.
  destruct (session_ok A amd u [SetOptions A ((default_settings A) <| verbose := v |>); Solve A] _ SF V)
      as [q0 [q [B [r [H1 [H2 [H3 _]]]]]]]; [left; exact Hp|].
  exists q0. unfold session in H3. rewrite H1 in H3. cbn [bind run_calls] in H3.
  pose proof (at_o _ _ _ _ (sd_at _ _ _ _ _ H2)) as Ho. cbn [fresh sn_o] in Ho. rewrite <- Ho in H3.
  destruct (QP_SOLVE A _) as [[c1 q1]| |] eqn:E; cbn [bind] in H3; try discriminate. eauto.
Qed.

Example C42_case amd : exists q c1 q1 c2 q2, setup FA amd (demo FA) = Ok q /\
  QP_SOLVE FA (q <| q_options := (q_options q) <| verbose := 0 |> |>) = Ok (c1, q1) /\
  QP_SOLVE FA (q <| q_options := (q_options q) <| verbose := 1 |> |>) = Ok (c2, q2).
Proof.
  assert (Hp : u_pe (demo FA) <> 0) by discriminate.
  destruct (C42_runs FA _ amd (demo FA) 0 (Safe_total FA FA_total) (demo_valid FA amd) Hp) as [q [c1 [q1 [E1 E2]]]].
  destruct (C42_runs FA _ amd (demo FA) 1 (Safe_total FA FA_total) (demo_valid FA amd) Hp) as [q' [c2 [q2 [E3 E4]]]].
  assert (Eq : q' = q) by congruence. subst q'. exists q, c1, q1, c2, q2. split; [exact E1|]. split; [exact E2|exact E4].
Qed.

(** min x^2/2 without constraints: everything but m is in order, and the read is out of bounds. *)
Definition unconstrained (A : Arith) : user (car A) :=
  mkUser 1 0 0 (zs [0; 1]) (zs [0]) (fs A [1]) None None None (zs [0; 0]) [] [] (fs A [0]) [] None (f0 A) (Some (zs [0])).

Example C44_case amd : setup FA amd (unconstrained FA) = Ub OobRead.
Proof. vm_compute. reflexivity. Qed.
