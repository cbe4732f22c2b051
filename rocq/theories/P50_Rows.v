(** Claim C87, the factor: the row indices that LDL_numeric stores, and the counts per column, are decided by the positions
    of the entries alone. *)
From Coq Require Import ZArith Reals List Lia Bool.
From RecordUpdate Require Import RecordUpdate.
From Verif Require Import Res Partial Arith Lists MSparse Csc SemVec Flat DenseProofs TransposeProofs KktProofs MLdl MSolver LdlNum VecOps Iter SafeInst Setup Session Spec SpecLink QpSpec
  Api Demo P1_Sparse P2_Kkt P4_Always P5_Session P6_Codes P9_Entry MAmd AmdBase AmdPre AmdOrder P12_Order P46_MinDegree P47_Ordering P49_Pattern.
Import ListNotations.
Open Scope Z_scope.
Open Scope res_scope.

(** Two runs that both finish leave related results. *)
Definition sim {S S'} (X : res S) (X' : res S') (R : S -> S' -> Prop) : Prop := forall a a', X = Ok a -> X' = Ok a' -> R a a'.

Lemma sim_ok {S S'} (a : S) (a' : S') (R : S -> S' -> Prop) : R a a' -> sim (Ok a) (Ok a') R.
Proof. intros H x x' E E'. injection E as <-. injection E' as <-. exact H. Qed.

Lemma sim_bind {S S' T T'} (X : res S) (X' : res S') (f : S -> res T) (f' : S' -> res T') R :
  sim X X' (fun a a' => sim (f a) (f' a') R) -> sim (bind X f) (bind X' f') R.
Proof. intros H x x' E E'. destruct X as [a| |]; try discriminate E. destruct X' as [a'| |]; try discriminate E'. exact (H a a' eq_refl eq_refl x x' E E'). Qed.

(** The same computation on both sides. *)
Lemma sim_same {S} (X : res S) (R : S -> S -> Prop) : (forall a, R a a) -> sim X X R.
Proof. intros H a a' E E'. rewrite E in E'. injection E' as <-. apply H. Qed.

(** Values, about which nothing is claimed. *)
Lemma sim_any {S S'} (X : res S) (X' : res S') (R : S -> S' -> Prop) : (forall a a', R a a') -> sim X X' R.
Proof. intros H a a' _ _. apply H. Qed.

Lemma sim_for {S S'} lo hi (b : Z -> S -> res S) (b' : Z -> S' -> res S') (R : S -> S' -> Prop) :
  (forall i s s', R s s' -> sim (b i s) (b' i s') R) -> forall s s', R s s' -> sim (for_ lo hi b s) (for_ lo hi b' s') R.
Proof.
  intros H. unfold for_. generalize (Z.to_nat (hi - lo)). intros k. revert lo. induction k as [|k IH]; intros lo s s' HR.
  - apply sim_ok, HR.
  - cbn [forN]. apply sim_bind. intros a a' E E'. apply IH. exact (H lo s s' HR a a' E E').
Qed.

Ltac ssame := apply sim_bind; apply sim_same; intros ?.
Ltac sany := apply sim_bind; apply sim_any; intros ? ?.

Section Two.
Variables A A' : Arith.

(** The index arrays of the work area agree. *)
Definition same_work (w : numst A) (w' : numst A') : Prop :=
  nLnz A w = nLnz A' w' /\ nLi A w = nLi A' w' /\ nPattern A w = nPattern A' w' /\ nFlag A w = nFlag A' w'.

Lemma scatter_sim n Ap Ai (Ax : arr (car A)) (Ax' : arr (car A')) Parent P Pinv k Y Y' Pattern Flag top :
  sim (num_scatter A n Ap Ai Ax Parent P Pinv k (Y, Pattern, Flag, top)) (num_scatter A' n Ap Ai Ax' Parent P Pinv k (Y', Pattern, Flag, top))
    (fun a a' => snd (fst (fst a)) = snd (fst (fst a')) /\ snd (fst a) = snd (fst a') /\ snd a = snd a').
Proof.
  unfold num_scatter. ssame. ssame. ssame. apply sim_for; [|auto].
  intros p [[[Y1 P1] F1] t1] [[[Y2 P2] F2] t2]. cbn [fst snd]. intros [<- [<- <-]].
  ssame. ssame. destruct (_ <=? k); [|apply sim_ok; auto].
  sany. sany. sany. apply sim_bind, sim_same. intros [[P3 F3] l3]. ssame. apply sim_ok. auto.
Qed.

Lemma elim_sim Lp Pattern k t Lnz Li Lx Lx' D D' Y Y' :
  sim (num_elim A Lp Pattern k t (Lnz, Li, Lx, D, Y)) (num_elim A' Lp Pattern k t (Lnz, Li, Lx', D', Y'))
    (fun a a' => fst (fst (fst (fst a))) = fst (fst (fst (fst a'))) /\ snd (fst (fst (fst a))) = snd (fst (fst (fst a')))).
Proof.
  unfold num_elim. ssame. sany. sany. ssame. ssame. cbv zeta. sany. sany. sany. sany. sany. ssame. sany. ssame. apply sim_ok. auto.
Qed.

Lemma row_sim n Ap Ai (Ax : arr (car A)) (Ax' : arr (car A')) Lp Parent P Pinv k w w' : same_work w w' ->
  sim (num_row A n Ap Ai Ax Lp Parent P Pinv k w) (num_row A' n Ap Ai Ax' Lp Parent P Pinv k w') same_work.
Proof.
  intros [E1 [E2 [E3 E4]]]. unfold num_row. sany. rewrite E1, E2, E3, E4. ssame. ssame.
  apply sim_bind. intros [[[Y1 P1] F1] t1] [[[Y2 P2] F2] t2] X X'. pose proof (scatter_sim _ _ _ _ _ _ _ _ _ _ _ _ _ _ _ _ X X') as H.
  cbn [fst snd] in H. destruct H as [<- [<- <-]]. sany. sany. sany.
  apply sim_bind. intros [[[[N1 L1] x1] D1] y1] [[[[N2 L2] x2] D2] y2] Z Z'.
  assert (H : N1 = N2 /\ L1 = L2).
  { refine (sim_for t1 n _ _ (fun a a' => fst (fst (fst (fst a))) = fst (fst (fst (fst a'))) /\ snd (fst (fst (fst a))) = snd (fst (fst (fst a')))) _ _ _ _ _ _ Z Z'); [|auto].
    intros i [[[[N3 L3] x3] D3] y3] [[[[N4 L4] x4] D4] y4]. cbn [fst snd]. intros [<- <-]. apply elim_sim. }
  destruct H as [<- <-]. sany. sany. apply sim_ok. repeat split.
Qed.

(** Two calls on one pattern with one order, on whatever values and in whatever arithmetic: the counts per column, the row
    indices and the two index work arrays are the same afterwards. *)
Theorem C87_factor n Ap Ai (Ax : arr (car A)) (Ax' : arr (car A')) Lp Parent P Pinv w w' r r' v v' : same_work w w' ->
  LDL_numeric A n Ap Ai Ax Lp Parent w P Pinv = Ok (r, v) -> LDL_numeric A' n Ap Ai Ax' Lp Parent w' P Pinv = Ok (r', v') ->
  r = r' /\ same_work v v'.
Proof.
  intros H E E'. revert E E'. unfold LDL_numeric.
  match goal with |- ?X = _ -> ?X' = _ -> _ => assert (G : sim X X' (fun a a' => fst a = fst a' /\ same_work (snd a) (snd a'))) end.
  { apply sim_bind. intros a a' E E'. apply sim_ok. split; [reflexivity|]. cbn [snd]. revert E E'.
    apply (sim_for 0 n _ _ same_work); [|exact H]. intros i s s' Hs. apply row_sim, Hs. }
  intros E E'. exact (G _ _ E E').
Qed.
End Two.

(** ** The handle *)
Section Factored.
Variable A : Arith.

(** The arrays in [k] are what LDL_symbolic, LDL_numeric and Transpose_Row_Count make, on fresh blocks, of the KKT matrix and
    the order in [k]. *)
Definition factored (np : Z) (k : kkt (car A)) : Prop := let M := k_mat k in let n := sn M in exists Lnz Fl lnz d Y Dg Lx v,
  LDL_symbolic n (jc M) (ir M) (malloc Z (n + 1)) (malloc Z n) (malloc Z n) (malloc Z n) (Some (k_P k)) (Some (malloc Z np)) =
    Ok (k_Lp k, k_Parent k, Lnz, Fl, Some (k_Pinv k)) /\
  rd (k_Lp k) n = Ok lnz /\
  LDL_numeric A n (jc M) (ir M) (pr M) (k_Lp k) (k_Parent k) (mkNum A Lnz (malloc Z (lnz + 1)) Lx Dg Y (malloc Z n) Fl) (Some (k_P k)) (Some (k_Pinv k)) = Ok (d, v) /\
  k_Lnz k = nLnz A v /\ k_Li k = nLi A v /\ k_Pattern k = nPattern A v /\ k_Flag k = nFlag A v /\
  Transpose_Row_Count n n (k_Li k) (k_Lp k) (malloc Z lnz) (malloc Z (n + 1)) = Ok (k_Lti k, k_Ltp k).

Lemma kkt_numeric_fac k : pw (kkt_numeric A k) (fun r => exists v, let M := k_mat k in
  LDL_numeric A (sn M) (jc M) (ir M) (pr M) (k_Lp k) (k_Parent k) (mkNum A (k_Lnz k) (k_Li k) (k_Lx k) (k_D k) (k_Y k) (k_Pattern k) (k_Flag k))
    (Some (k_P k)) (Some (k_Pinv k)) = Ok (fst r, v) /\
  k_mat (snd r) = k_mat k /\ k_P (snd r) = k_P k /\ k_Lp (snd r) = k_Lp k /\ k_Parent (snd r) = k_Parent k /\ k_Pinv (snd r) = k_Pinv k /\
  k_Lnz (snd r) = nLnz A v /\ k_Li (snd r) = nLi A v /\ k_Pattern (snd r) = nPattern A v /\ k_Flag (snd r) = nFlag A v).
Proof. unfold kkt_numeric. cbv zeta. apply pw_skip. intros [d v] E. apply pw_ok. exists v. split; [exact E|]. destruct k. repeat split. Qed.

(** The arrays set before and after the call. *)
Lemma factored_of np k0 k1 k2 (M : smat (car A)) Lp Parent Pinv P Lnz Fl lnz d v :
  LDL_symbolic (sn M) (jc M) (ir M) (malloc Z (sn M + 1)) (malloc Z (sn M)) (malloc Z (sn M)) (malloc Z (sn M)) (Some P) (Some (malloc Z np)) =
    Ok (Lp, Parent, Lnz, Fl, Some Pinv) -> rd Lp (sn M) = Ok lnz ->
  k_mat k0 = M -> k_P k0 = P -> k_Lp k0 = Lp -> k_Parent k0 = Parent -> k_Pinv k0 = Pinv -> k_Lnz k0 = Lnz -> k_Flag k0 = Fl ->
  k_Pattern k0 = malloc Z (sn M) -> k_Li k0 = malloc Z (lnz + 1) ->
  LDL_numeric A (sn (k_mat k0)) (jc (k_mat k0)) (ir (k_mat k0)) (pr (k_mat k0)) (k_Lp k0) (k_Parent k0)
    (mkNum A (k_Lnz k0) (k_Li k0) (k_Lx k0) (k_D k0) (k_Y k0) (k_Pattern k0) (k_Flag k0)) (Some (k_P k0)) (Some (k_Pinv k0)) = Ok (d, v) ->
  k_mat k1 = k_mat k0 /\ k_P k1 = k_P k0 /\ k_Lp k1 = k_Lp k0 /\ k_Parent k1 = k_Parent k0 /\ k_Pinv k1 = k_Pinv k0 /\
  k_Lnz k1 = nLnz A v /\ k_Li k1 = nLi A v /\ k_Pattern k1 = nPattern A v /\ k_Flag k1 = nFlag A v ->
  Transpose_Row_Count (sn M) (sn M) (k_Li k1) (k_Lp k1) (malloc Z lnz) (malloc Z (sn M + 1)) = Ok (k_Lti k2, k_Ltp k2) ->
  k_mat k2 = k_mat k1 -> k_P k2 = k_P k1 -> k_Lp k2 = k_Lp k1 -> k_Parent k2 = k_Parent k1 -> k_Pinv k2 = k_Pinv k1 ->
  k_Lnz k2 = k_Lnz k1 -> k_Li k2 = k_Li k1 -> k_Pattern k2 = k_Pattern k1 -> k_Flag k2 = k_Flag k1 -> factored np k2.
Proof.
  intros ES EL A1 A2 A3 A4 A5 A6 A7 A8 A9 EN [B1 [B2 [B3 [B4 [B5 [B6 [B7 [B8 B9]]]]]]]] ET C1 C2 C3 C4 C5 C6 C7 C8 C9.
  rewrite A1, A2, A3, A4, A5, A6, A7, A8, A9 in EN. rewrite A1 in B1. rewrite A2 in B2. rewrite A3 in B3. rewrite A4 in B4. rewrite A5 in B5.
  rewrite B1 in C1. rewrite B2 in C2. rewrite B3 in C3. rewrite B4 in C4. rewrite B5 in C5. rewrite B6 in C6. rewrite B8 in C8. rewrite B9 in C9.
  rewrite <- C7, B3 in ET. rewrite B7 in C7.
  unfold factored. cbv zeta. rewrite C1, C2, C3, C4, C5. exists Lnz, Fl, lnz, d, (k_Y k0), (k_D k0), (k_Lx k0), v.
  split; [exact ES|]. split; [exact EL|]. split; [exact EN|]. split; [exact C6|]. split; [exact C7|]. split; [exact C8|]. split; [exact C9|]. exact ET.
Qed.

Lemma ldlinitialsolve_fac np k delta : k_Pinv k = malloc Z np -> pw (ldlinitialsolve A k delta) (fun r => factored np (snd (fst r))).
Proof.
  intros HP. unfold ldlinitialsolve. cbv zeta. apply pw_skip. intros [[[[Lp Parent] Lnz] Fl] Pinv] ES. apply pw_skip. intros Pi ED. apply pw_skip. intros lnz EL.
  destruct Pinv as [Pv|]; [|discriminate ED]. injection ED as ->. rewrite HP in ES.
  match goal with |- context [kkt_numeric A ?K] => assert (H : k_mat K = k_mat k /\ k_P K = k_P k /\ k_Lp K = Lp /\ k_Parent K = Parent /\ k_Pinv K = Pi /\
    k_Lnz K = Lnz /\ k_Flag K = Fl /\ k_Pattern K = malloc Z (sn (k_mat k)) /\ k_Li K = malloc Z (lnz + 1)) by (destruct k; repeat split); generalize dependent K end.
  intros k0 [A1 [A2 [A3 [A4 [A5 [A6 [A7 [A8 A9]]]]]]]]. apply pw_bind. eapply pw_mono; [apply kkt_numeric_fac|]. intros [d k1] [v [EN HB]]. cbn [fst snd] in EN, HB.
  apply pw_skip. intros [Lti Ltp] ET. cbv zeta.
  assert (G : forall k2, k_Lti k2 = Lti -> k_Ltp k2 = Ltp -> k_mat k2 = k_mat k1 -> k_P k2 = k_P k1 -> k_Lp k2 = k_Lp k1 -> k_Parent k2 = k_Parent k1 -> k_Pinv k2 = k_Pinv k1 ->
    k_Lnz k2 = k_Lnz k1 -> k_Li k2 = k_Li k1 -> k_Pattern k2 = k_Pattern k1 -> k_Flag k2 = k_Flag k1 -> factored np k2).
  { intros k2 X1 X2. rewrite <- X1, <- X2 in ET. exact (factored_of np k0 k1 k2 (k_mat k) Lp Parent Pi (k_P k) Lnz Fl lnz d v ES EL A1 A2 A3 A4 A5 A6 A7 A8 A9 EN HB ET). }
  clear - G. destruct (d =? _).
  - apply pw_skip. intros [dl b] _. apply pw_ok. cbn [fst snd]. apply G; destruct k1; reflexivity.
  - apply pw_ok. cbn [fst snd]. apply G; destruct k1; reflexivity.
Qed.

Lemma kkt_initialize_fac np q : k_Pinv (q_kkt q) = malloc Z np -> pw (kkt_initialize A q) (fun r => factored np (q_kkt (snd r))).
Proof.
  intros HP. unfold kkt_initialize. cbv zeta. pstep. pstep. pstep. apply pw_bind. eapply pw_mono; [apply (ldlinitialsolve_fac np); exact HP|].
  intros [[ok k] delta] H. cbn [fst snd] in *. destruct ok.
  - pstep. pstep. pstep. pstep. pstep. destruct x6 as [mn mx]. pstep. pstep. pok. exact H.
  - repeat pstep; pok; exact H.
Qed.

Lemma setup_core_fac amd n m p_arg P G AM c h b sd perm :
  pw (setup_core A amd n m p_arg P G AM c h b sd perm) (fun q => factored (q_m q + q_n q + q_p q) (q_kkt q)).
Proof.
  unfold setup_core. cbv zeta. pskip. pskip. destruct AM as [M|].
  - pskip. apply pw_skip. intros [Pm res] _. cbv zeta. apply pw_bind. intros [ok q] Ei.
    pose proof (kkt_initialize_stats _ _ _ Ei) as [Hok [HF HS]]. cbn [fst snd] in *. subst ok. apply pw_ok.
    rewrite (fr_n _ _ _ HF), (fr_m _ _ _ HF), (fr_p _ _ _ HF). refine (kkt_initialize_fac _ _ _ _ Ei). reflexivity.
  - pskip. apply pw_skip. intros [Pm res] _. cbv zeta. apply pw_bind. intros [ok q] Ei.
    pose proof (kkt_initialize_stats _ _ _ Ei) as [Hok [HF HS]]. cbn [fst snd] in *. subst ok. apply pw_ok.
    rewrite (fr_n _ _ _ HF), (fr_m _ _ _ HF), (fr_p _ _ _ HF). refine (kkt_initialize_fac _ _ _ _ Ei). reflexivity.
Qed.

Lemma setup_fac amd (u : user (car A)) q : setup A amd u = Ok q -> factored (q_m q + q_n q + q_p q) (q_kkt q).
Proof.
  intros E. unfold setup, QP_SETUP in E. revert q E.
  match goal with |- forall q, ?X = Ok q -> @?Y q => change (pw X Y) end.
  pskip. pskip. pskip. apply setup_core_fac.
Qed.
End Factored.

(** After setup: counts per column, row indices, and both index arrays of the transposed factor. *)
Theorem C87_rows (A A' : Arith) amd (u : user (car A)) (u' : user (car A')) q q' : div_ok A -> div_ok A' -> same_pattern u u' -> u_perm u = u_perm u' ->
  valid_user amd u -> valid_user amd u' -> covered u -> setup A amd u = Ok q -> setup A' amd u' = Ok q' ->
  let k := q_kkt q in let k' := q_kkt q' in
  k_Lnz k = k_Lnz k' /\ k_Li k = k_Li k' /\ k_Lti k = k_Lti k' /\ k_Ltp k = k_Ltp k'.
Proof.
  intros D D' SP HP V V' Cv S S' k k'. destruct (C87_pattern A A' amd amd u u' q q' D D' SP V V' Cv S S') as [E1 [E2 E3]].
  destruct (C87_order A A' amd u u' q q' D D' SP HP V V' Cv S S') as [_ EP]. pose proof (same_sizes A A' amd amd u u' q q' D D' SP V V' S S') as EL.
  destruct (C87_symbolic A A' amd u u' q q' D D' SP HP V V' Cv S S') as [F1 [F2 F3]].
  destruct (setup_fac A amd u q S) as [Z1 [f1 [l1 [d1 [Y1 [G1 [x1 [v1 [H1 [H2 [H3 [H4 [H5 [H6 [H7 H8]]]]]]]]]]]]]]].
  destruct (setup_fac A' amd u' q' S') as [Z2 [f2 [l2 [d2 [Y2 [G2 [x2 [v2 [J1 [J2 [J3 [J4 [J5 [J6 [J7 J8]]]]]]]]]]]]]]].
  fold k in E1, E2, E3, EP, F1, F2, F3, H1, H2, H3, H4, H5, H8. fold k' in E1, E2, E3, EP, F1, F2, F3, J1, J2, J3, J4, J5, J8.
  rewrite E1, E2, E3, EL, EP in H1. rewrite H1 in J1. injection J1 as _ _ EZ Ef _.
  rewrite E1, F3 in H2. rewrite H2 in J2. injection J2 as El.
  rewrite E1, E2, E3, EP, F1, F2, F3 in H3. rewrite E1, F3 in H8. subst Z2 f2 l2.
  assert (W : d1 = d2 /\ same_work A A' v1 v2) by (eapply C87_factor; [|exact H3|exact J3]; repeat split). destruct W as [_ [W1 [W2 _]]].
  rewrite <- H4, <- J4 in W1. rewrite <- H5, <- J5 in W2. rewrite W2, J8 in H8. injection H8 as T1 T2. auto.
Qed.
Print Assumptions C87_factor. Print Assumptions C87_rows.
