(** Changing the problem between solves.  QP_SETUP keeps the caller's pointers to the values of P, A, G and to
    c, h, b (src/qpSWIFT.c:76-111); nothing is copied.  A caller may therefore overwrite these arrays between calls
    of QP_SOLVE.  The KKT matrix, by contrast, is assembled once from P, A and G. *)
From Coq Require Import ZArith Reals List Lia Lra Bool.
From RecordUpdate Require Import RecordUpdate.
From Flocq Require Import IEEE754.BinarySingleNaN.
From Verif Require Import Res Partial Arith Lists MSparse Csc SemVec Flat TransposeProofs KktProofs MLdl LdlSym LdlNum LdlR
  LdlFun MSolver VecOps Iter SafeInst Setup Session Spec SpecLink QpSpec NewtonR Api PointR Demo P2_Kkt P4_Always P5_Session P6_Codes P7_Step Demo.
Import ListNotations.
Open Scope Z_scope.
Open Scope res_scope.

(** ** Overwriting the caller's arrays *)

(** New contents of one of the arrays passed to QP_SETUP: the vectors c, h, b, or the values of P, G, A. *)
Inductive edit (F : Type) : Type :=
| EditC (a : arr F) | EditH (a : arr F) | EditB (a : arr F)
| EditP (a : arr F) | EditG (a : arr F) | EditA (a : arr F).
Arguments EditC {F}. Arguments EditH {F}. Arguments EditB {F}.
Arguments EditP {F}. Arguments EditG {F}. Arguments EditA {F}.

(** The caller's data afterwards.  A NULL pointer has no contents. *)
Definition edit_user {F} (u : user F) (e : edit F) : user F :=
  match e with
  | EditC a => u <| u_c := a |>
  | EditH a => u <| u_h := a |>
  | EditB a => match u_b u with Some _ => u <| u_b := Some a |> | None => u end
  | EditP a => u <| u_Ppr := a |>
  | EditG a => u <| u_Gpr := a |>
  | EditA a => match u_Apr u with Some _ => u <| u_Apr := Some a |> | None => u end
  end.

(** The block keeps its size, and every cell the library reads has a value. *)
Definition valid_edit {F} (u : user F) (e : edit F) : Prop :=
  match e with
  | EditC a => filled a (u_n u)
  | EditH a => filled a (u_m u)
  | EditB a => filled a (u_p u)
  | EditP a => filled a (get 0 (u_Pjc u) (u_n u))
  | EditG a => filled a (get 0 (u_Gjc u) (u_n u))
  | EditA a => forall ajc, u_Ajc u = Some ajc -> filled a (get 0 ajc (u_n u))
  end.

Definition with_values {F} (M : smat F) (a : arr F) : smat F := mkSmat (jc M) (ir M) a (sn M) (sm M) (nnz M).

(** The same write seen through the handle: myQP->c, h, b (src/qpSWIFT.c:95, 110, 111) and the pr pointers of
    myQP->P, A, G (SparseMatrixSetup, src/Auxilary.c, called at src/qpSWIFT.c:76, 78, 87) are the caller's blocks.
    The transposes myQP->At, Gt and the KKT matrix are separate blocks. *)
Definition edit_handle {F} (q : qp F) (e : edit F) : qp F :=
  match e with
  | EditC a => q <| q_c := a |>
  | EditH a => q <| q_h := a |>
  | EditB a => match q_b q with Some _ => q <| q_b := Some a |> | None => q end
  | EditP a => q <| q_P := with_values (q_P q) a |>
  | EditG a => q <| q_G := with_values (q_G q) a |>
  | EditA a => match q_A q with Some M => q <| q_A := Some (with_values M a) |> | None => q end
  end.

Section Data.
Variable A : Arith.
Notation F := (car A).
Notation zero := (f0 A).

(** What a caller does with a handle: options, solves, and overwriting data. *)
Inductive action : Type :=
| Options (o : settings F)
| Run
| Change (e : edit F).

Fixpoint run_actions (q : qp F) (l : list action) : res (list Z * qp F) :=
  match l with
  | [] => Ok ([], q)
  | Options o :: l => run_actions (q <| q_options := o |>) l
  | Change e :: l => run_actions (edit_handle q e) l
  | Run :: l => '(code, q) <- QP_SOLVE A q ;; '(codes, q) <- run_actions q l ;; Ok (code :: codes, q)
  end.

Definition live (amd : amd_t) (u : user F) (l : list action) : res (list Z * qp F) :=
  q <- setup A amd u ;; run_actions q l.

(** The caller's data after the actions. *)
Fixpoint data_after (u : user F) (l : list action) : user F :=
  match l with
  | [] => u
  | Change e :: l => data_after (edit_user u e) l
  | _ :: l => data_after u l
  end.

(** Every write is a valid one; progress output only with equality constraints. *)
Definition valid_actions (u : user F) (l : list action) : Prop :=
  (forall e, In (Change e) l -> valid_edit u e) /\
  (u_pe u <> 0 \/ forall o, In (Options o) l -> verbose o <= 0).

(** The handle's data pointers lead to the caller's current arrays. *)
Record shares (u : user F) (q : qp F) : Prop := mkShares {
  sh_P : q_P q = mkSmat (u_Pjc u) (u_Pir u) (u_Ppr u) (u_n u) (u_n u) (get 0 (u_Pjc u) (u_n u));
  sh_G : q_G q = mkSmat (u_Gjc u) (u_Gir u) (u_Gpr u) (u_n u) (u_m u) (get 0 (u_Gjc u) (u_n u));
  sh_c : q_c q = u_c u;
  sh_h : q_h q = u_h u;
  sh_A : match u_eqs u with
         | Some (ajc, air, apr, bb) => q_A q = Some (mkSmat ajc air apr (u_n u) (u_p u) (get 0 ajc (u_n u))) /\ q_b q = Some bb
         | None => q_A q = None /\ q_b q = None
         end
}.

(** ** Valid data stay valid *)

Lemma edit_dims (u : user F) e : u_n (edit_user u e) = u_n u /\ u_m (edit_user u e) = u_m u /\ u_p (edit_user u e) = u_p u /\
  u_Pjc (edit_user u e) = u_Pjc u /\ u_Gjc (edit_user u e) = u_Gjc u /\ u_Ajc (edit_user u e) = u_Ajc u /\
  u_perm (edit_user u e) = u_perm u /\ u_sigma_d (edit_user u e) = u_sigma_d u.
Proof. destruct e; cbn; try (destruct (u_b u)); try (destruct (u_Apr u)); repeat split. Qed.

Lemma edit_eqs (u : user F) e :
  match u_eqs u with
  | None => u_eqs (edit_user u e) = None
  | Some (ajc, air, apr, bb) => u_Ajc u = Some ajc /\ u_eqs (edit_user u e) =
      Some (ajc, air, match e with EditA a => a | _ => apr end, match e with EditB a => a | _ => bb end)
  end.
Proof.
  unfold u_eqs. destruct e; cbn; destruct (u_Apr u) eqn:E1; cbn; rewrite ?E1; destruct (u_Ajc u) eqn:E2; destruct (u_Air u) eqn:E3;
    destruct (u_b u) eqn:E4; cbn; rewrite ?E1, ?E2, ?E3, ?E4; try reflexivity; destruct (u_p u =? 0); auto.
Qed.

Lemma edit_pe (u : user F) e : u_pe (edit_user u e) = u_pe u.
Proof.
  pose proof (edit_eqs u e) as H. destruct (edit_dims u e) as [_ [_ [E _]]]. unfold u_pe. rewrite E.
  destruct (u_eqs u) as [[[[ajc air] apr] bb]|]; [destruct H as [_ ->]|rewrite H]; reflexivity.
Qed.

Lemma edit_cap (u : user F) e : u_cap (edit_user u e) = u_cap u.
Proof.
  pose proof (edit_eqs u e) as H. destruct (edit_dims u e) as [E1 [E2 [E3 [E4 [E5 _]]]]]. unfold u_cap. rewrite E1, E2, E4, E5.
  destruct (u_eqs u) as [[[[ajc air] apr] bb]|]; [destruct H as [_ ->]|rewrite H]; reflexivity.
Qed.

Lemma some_stored m n Jc Ir (Pr : arr F) nz : 0 <= n -> csc_arrays m n Jc Ir Pr nz -> 1 <= nz ->
  exists i j v, 0 <= j < n /\ stored Jc Ir Pr i j v.
Proof.
  intros Hn HC Hz. destruct (csc_link zero _ _ _ _ _ _ Hn HC) as [C [_ S]]. rewrite <- S in Hz.
  destruct (start_decompose (column zero Jc Ir Pr) n 0 Hn ltac:(lia)) as [j [t [Hj [Ht _]]]].
  destruct (column zero Jc Ir Pr j) as [|[i v] l] eqn:E; [unfold zlen in Ht; cbn in Ht; lia|].
  exists i, j, v. split; auto. apply (Csc_stored _ _ _ _ _ _ _ _ C Hj). rewrite E. left. reflexivity.
Qed.

Lemma new_values m n Jc Ir (Pr Pr' : arr F) : (exists nz, csc_arrays m n Jc Ir Pr nz) -> filled Pr' (get 0 Jc n) ->
  exists nz, csc_arrays m n Jc Ir Pr' nz.
Proof.
  intros [nz [HP HV]] HF. exists nz. split; auto. rewrite (get_rd 0 _ _ _ (cp_last _ _ _ _ _ HP)) in HF. exact HF.
Qed.

Lemma edit_valid amd (u : user F) e : valid_user amd u -> valid_edit u e -> valid_user amd (edit_user u e).
Proof.
  intros [Vn Vm VP VG VA Vc Vh Vs Vp] He. destruct (edit_dims u e) as [E1 [E2 [E3 [E4 [E5 [E6 [E7 E8]]]]]]].
  pose proof (edit_eqs u e) as Ee.
  assert (VP' : exists nz, csc_arrays (u_n u) (u_n u) (u_Pjc u) (u_Pir u) (u_Ppr (edit_user u e)) nz).
  { destruct e; cbn; try exact VP; try (destruct (u_b u); exact VP); try (destruct (u_Apr u); exact VP).
    eapply new_values; eauto. }
  assert (VG' : exists nz, csc_arrays (u_m u) (u_n u) (u_Gjc u) (u_Gir u) (u_Gpr (edit_user u e)) nz).
  { destruct e; cbn; try exact VG; try (destruct (u_b u); exact VG); try (destruct (u_Apr u); exact VG).
    eapply new_values; eauto. }
  assert (IP : u_Pir (edit_user u e) = u_Pir u) by (destruct e; cbn; try (destruct (u_b u)); try (destruct (u_Apr u)); reflexivity).
  assert (IG : u_Gir (edit_user u e) = u_Gir u) by (destruct e; cbn; try (destruct (u_b u)); try (destruct (u_Apr u)); reflexivity).
  assert (VA' : forall ajc air apr bb, u_eqs (edit_user u e) = Some (ajc, air, apr, bb) ->
     0 <= u_p u /\ (exists nz, csc_arrays (u_p u) (u_n u) ajc air apr nz) /\ filled bb (u_p u)).
  { intros ajc air apr bb E. destruct (u_eqs u) as [[[[jc ir] pr] b0]|] eqn:E0; [|congruence].
    destruct Ee as [Ej Ee]. rewrite Ee in E. injection E as <- <- <- <-.
    destruct (VA _ _ _ _ eq_refl) as [Hp [Hc Hb]]. split; auto. split.
    - destruct e; auto. eapply new_values; eauto.
    - destruct e; auto. }
  split; rewrite ?E1, ?E2, ?E3, ?E4, ?E5, ?IP, ?IG; auto.
  - destruct e; cbn; auto; try (destruct (u_b u); exact Vc); destruct (u_Apr u); exact Vc.
  - destruct e; cbn; auto; try (destruct (u_b u); exact Vh); destruct (u_Apr u); exact Vh.
  - destruct Vs as [i [j [v [Hj [Hs|[Hs|[ajc [air [apr [bb [E Hs]]]]]]]]]]].
    + destruct VP as [nz HP]. destruct VP' as [nz' HP']. pose proof (stored_some zero _ _ _ _ _ _ _ _ _ Vn HP Hj Hs) as Hz.
      assert (nz' = nz).
      { pose proof (cp_last _ _ _ _ _ (ca_pattern _ _ _ _ _ _ HP)). pose proof (cp_last _ _ _ _ _ (ca_pattern _ _ _ _ _ _ HP')). congruence. }
      destruct (some_stored _ _ _ _ _ _ Vn HP' ltac:(lia)) as [i' [j' [v' [Hj' Hs']]]]. exists i', j', v'. auto.
    + destruct VG as [nz HP]. destruct VG' as [nz' HP']. pose proof (stored_some zero _ _ _ _ _ _ _ _ _ Vn HP Hj Hs) as Hz.
      assert (nz' = nz).
      { pose proof (cp_last _ _ _ _ _ (ca_pattern _ _ _ _ _ _ HP)). pose proof (cp_last _ _ _ _ _ (ca_pattern _ _ _ _ _ _ HP')). congruence. }
      destruct (some_stored _ _ _ _ _ _ Vn HP' ltac:(lia)) as [i' [j' [v' [Hj' Hs']]]]. exists i', j', v'. auto.
    + rewrite E in Ee. destruct Ee as [_ Ee]. destruct (VA _ _ _ _ E) as [_ [[nz HP] _]]. destruct (VA' _ _ _ _ Ee) as [_ [[nz' HP'] _]].
      pose proof (stored_some zero _ _ _ _ _ _ _ _ _ Vn HP Hj Hs) as Hz.
      assert (nz' = nz).
      { pose proof (cp_last _ _ _ _ _ (ca_pattern _ _ _ _ _ _ HP)). pose proof (cp_last _ _ _ _ _ (ca_pattern _ _ _ _ _ _ HP')). congruence. }
      destruct (some_stored _ _ _ _ _ _ Vn HP' ltac:(lia)) as [i' [j' [v' [Hj' Hs']]]]. exists i', j', v'. split; auto. right. right. eauto 10.
  - rewrite E7. unfold u_N. rewrite E1, E2, edit_pe, edit_cap. destruct (u_perm u); auto.
Qed.

Lemma edit_valid_edit (u : user F) e e' : valid_edit u e' -> valid_edit (edit_user u e) e'.
Proof.
  destruct (edit_dims u e) as [E1 [E2 [E3 [E4 [E5 [E6 _]]]]]]. destruct e'; cbn; rewrite ?E1, ?E2, ?E3, ?E4, ?E5, ?E6; auto.
Qed.

Lemma data_after_app (u : user F) l1 l2 : data_after u (l1 ++ l2) = data_after (data_after u l1) l2.
Proof. revert u. induction l1 as [|[o| |e] l1 IH]; intros u; cbn; auto. Qed.

Lemma edit_shares u q e : shares u q -> shares (edit_user u e) (edit_handle q e).
Proof.
  intros [HP HG Hc Hh HA]. destruct (edit_dims u e) as [E1 [E2 [E3 [E4 [E5 [E6 _]]]]]]. pose proof (edit_eqs u e) as Ee.
  assert (IP : u_Pir (edit_user u e) = u_Pir u) by (destruct e; cbn; try (destruct (u_b u)); try (destruct (u_Apr u)); reflexivity).
  assert (IG : u_Gir (edit_user u e) = u_Gir u) by (destruct e; cbn; try (destruct (u_b u)); try (destruct (u_Apr u)); reflexivity).
  split; rewrite ?E1, ?E2, ?E3, ?E4, ?E5, ?IP, ?IG.
  - destruct e; cbn [edit_user edit_handle]; try (destruct (u_b u)); try (destruct (u_Apr u)); try (destruct (q_b q)); try (destruct (q_A q));
      cbn; unfold with_values; rewrite ?HP; reflexivity.
  - destruct e; cbn [edit_user edit_handle]; try (destruct (u_b u)); try (destruct (u_Apr u)); try (destruct (q_b q)); try (destruct (q_A q));
      cbn; unfold with_values; rewrite ?HG; reflexivity.
  - destruct e; cbn [edit_user edit_handle]; try (destruct (u_b u)); try (destruct (u_Apr u)); try (destruct (q_b q)); try (destruct (q_A q));
      cbn; rewrite ?Hc; reflexivity.
  - destruct e; cbn [edit_user edit_handle]; try (destruct (u_b u)); try (destruct (u_Apr u)); try (destruct (q_b q)); try (destruct (q_A q));
      cbn; rewrite ?Hh; reflexivity.
  - destruct (u_eqs u) as [[[[ajc air] apr] bb]|].
    + destruct Ee as [_ ->]. destruct HA as [H1 H2]. destruct e; cbn [edit_handle]; rewrite ?H1, ?H2; cbn; rewrite ?H1, ?H2; auto.
    + rewrite Ee. destruct HA as [H1 H2]. destruct e; cbn [edit_handle]; rewrite ?H1, ?H2; cbn; auto.
Qed.

Lemma frame_shares u q q' : frame A q q' -> shares u q -> shares u q'.
Proof. intros [] []. split; try congruence. destruct (u_eqs u) as [[[[ajc air] apr] bb]|]; split; try congruence; destruct sh_A0; congruence. Qed.

(** ** The handle after any actions *)

(** The caller's problem with a KKT matrix assembled earlier. *)
Definition prob_now (u : user F) (Pf Qf par : Z -> Z) (K : cols F) : prob F :=
  mkProbK (u_n u) (u_m u) (u_pe u) (column zero (u_Pjc u) (u_Pir u) (u_Ppr u)) (u_acol A u)
    (column zero (u_Gjc u) (u_Gir u) (u_Gpr u)) (get zero (u_c u)) (u_bv A u) (get zero (u_h u)) (u_sigma_d u) Pf Qf par K.

Lemma base_now amd (u u' : user F) Pf Qf par K q q' : Base A (prob_now u Pf Qf par K) q -> valid_user amd u' ->
  u_n u' = u_n u -> u_m u' = u_m u -> u_pe u' = u_pe u -> u_sigma_d u' = u_sigma_d u -> shares u' q' ->
  q' = q <| q_P := q_P q' |> <| q_G := q_G q' |> <| q_A := q_A q' |> <| q_c := q_c q' |> <| q_h := q_h q' |> <| q_b := q_b q' |> ->
  Base A (prob_now u' Pf Qf par K) q'.
Proof.
  intros HB V En Em Ep Es SH Eq. destruct V as [Vn Vm [nzP VP] [nzG VG] VA Vc Vh _ _]. destruct SH as [SP SG Sc Sh SA].
  destruct (csc_link zero _ _ _ _ _ _ Vn VP) as [CP [RP NP]]. destruct (csc_link zero _ _ _ _ _ _ Vn VG) as [CG [RG NG]].
  assert (Fr : q_n q' = q_n q /\ q_m q' = q_m q /\ q_p q' = q_p q /\ q_sigma_d q' = q_sigma_d q /\ q_rx q' = q_rx q /\ q_ry q' = q_ry q /\
     q_rz q' = q_rz q /\ q_delta q' = q_delta q /\ q_delta_x q' = q_delta_x q /\ q_delta_y q' = q_delta_y q /\ q_delta_z q' = q_delta_z q /\
     q_delta_s q' = q_delta_s q /\ q_ds q' = q_ds q /\ q_lambda q' = q_lambda q /\ q_temp q' = q_temp q /\ q_kkt q' = q_kkt q)
    by (rewrite Eq; repeat split).
  destruct Fr as [F1 [F2 [F3 [F4 [F5 [F6 [F7 [F8 [F9 [F10 [F11 [F12 [F13 [F14 [F15 F16]]]]]]]]]]]]]]].
  destruct HB. cbn [prob_now pn pm pp psd pP pG pA pb pc ph pN pPf pQf ppar pK K0] in *. unfold pN, K0 in *. cbn [prob_now pn pm pp pK] in *.
  assert (P1 := cp_last _ _ _ _ _ (ca_pattern _ _ _ _ _ _ VP)). assert (G1 := cp_last _ _ _ _ _ (ca_pattern _ _ _ _ _ _ VG)).
  split; unfold pN, K0; cbn [prob_now pn pm pp psd pP pG pA pb pc ph pPf pQf ppar pK]; rewrite ?En, ?Em, ?Ep, ?Es, ?F1, ?F2, ?F3, ?F4, ?F5, ?F6, ?F7, ?F8, ?F9, ?F10, ?F11, ?F12, ?F13, ?F14, ?F15, ?F16; auto.
  - rewrite SP, <- En. split; cbn; auto. rewrite NP. apply get_rd. auto.
  - rewrite SG, <- En, <- Em. split; cbn; auto; try lia. rewrite NG. apply get_rd. auto.
  - intros Hp. destruct (u_eqs u') as [[[[ajc air] apr] bb]|] eqn:E; [|exfalso; apply Hp; rewrite <- Ep; unfold u_pe; rewrite E; reflexivity].
    destruct (VA _ _ _ _ eq_refl) as [Hp0 [[nz HC] Hb]]. destruct SA as [S1 S2]. destruct (csc_link zero _ _ _ _ _ _ Vn HC) as [CA [RA NA]].
    assert (Epp : u_pe u = u_p u') by (rewrite <- Ep; unfold u_pe; rewrite E; reflexivity). rewrite Epp.
    assert (Ea : u_acol A u' = column zero ajc air apr) by (unfold u_acol; rewrite E; reflexivity).
    assert (Ebv : u_bv A u' = get zero bb) by (unfold u_bv; rewrite E; reflexivity). rewrite Ea, Ebv.
    exists (mkSmat ajc air apr (u_n u') (u_p u') (get 0 ajc (u_n u'))), bb. split; auto. split; [|split; auto].
    + rewrite <- En. split; cbn; auto. rewrite NA. apply get_rd. apply (cp_last _ _ _ _ _ (ca_pattern _ _ _ _ _ _ HC)).
    + apply filled_vec. exact Hb.
  - rewrite Sc, <- En. apply filled_vec. exact Vc.
  - rewrite Sh, <- Em. apply filled_vec. exact Vh.
Qed.

Record Now (ps : F -> Prop) (u : user F) (Pf Qf par : Z -> Z) (K : cols F) (q : qp F) (s : snap A) : Prop := mkNow {
  nw_at : At A (prob_now u Pf Qf par K) q s;
  nw_in : interior A (prob_now u Pf Qf par K) ps (sn_pt A s);
  nw_fl : Flag (sn_st A s) <> QP_KKTFAIL;
  nw_sh : shares u q
}.

Lemma edit_rest (q : qp F) e : let q' := edit_handle q e in
  q' = q <| q_P := q_P q' |> <| q_G := q_G q' |> <| q_A := q_A q' |> <| q_c := q_c q' |> <| q_h := q_h q' |> <| q_b := q_b q' |> /\
  q_x q' = q_x q /\ q_y q' = q_y q /\ q_z q' = q_z q /\ q_s q' = q_s q /\ q_options q' = q_options q /\ q_stats q' = q_stats q.
Proof.
  destruct q as [? ? ? ? ? ? ? ? ? ? ? ? ? ? ? ? ? ? ? ? ? ? ? ? ? qA qb ? ? ? ? ?]; cbv zeta; destruct e; try (destruct qb); try (destruct qA); repeat split.
Qed.

Lemma Now_edit amd ps u Pf Qf par K q s e : valid_user amd u -> valid_edit u e -> Now ps u Pf Qf par K q s ->
  Now ps (edit_user u e) Pf Qf par K (edit_handle q e) s.
Proof.
  intros V He [HA Hi Hf Hs]. destruct (edit_dims u e) as [E1 [E2 [_ [_ [_ [_ [_ E8]]]]]]]. pose proof (edit_pe u e) as E9.
  destruct (edit_rest q e) as [R1 [R2 [R3 [R4 [R5 [R6 R7]]]]]].
  pose proof (edit_shares u q e Hs) as HS'.
  split; auto.
  - destruct HA as [HB HP Ho Hst]. split.
    + eapply (base_now amd u _ _ _ _ _ q); eauto. apply edit_valid; auto.
    + destruct HP. cbn [prob_now pn pm pp] in *. split; cbn [prob_now pn pm pp]; rewrite ?E1, ?E2, ?E9, ?R2, ?R3, ?R4, ?R5; auto.
    + rewrite R6. auto.
    + rewrite R7. auto.
  - destruct Hi as [H1 H2]. split; cbn [prob_now pm] in *; rewrite ?E2; auto.
Qed.

Definition loud_u (u : user F) (o : settings F) : Prop := u_pe u <> 0 \/ verbose o <= 0.

Lemma valid_actions_tail u a l : valid_actions u (a :: l) -> valid_actions u l.
Proof. intros [H1 H2]. split; [intros e He; apply H1; right; auto|]. destruct H2 as [H2|H2]; [left; auto|right]. intros o Ho. apply H2. right. auto. Qed.

Lemma valid_actions_edit u e l : valid_actions u l -> valid_actions (edit_user u e) l.
Proof. intros [H1 H2]. split; [intros e' He'; apply edit_valid_edit; auto|]. rewrite edit_pe. auto. Qed.

Lemma run_actions_ok amd ps Pf Qf par K l : forall u q s, Safe A ps -> valid_user amd u -> valid_actions u l ->
  Now ps u Pf Qf par K q s -> loud_u u (sn_o A s) ->
  wp (run_actions q l) (fun r => valid_user amd (data_after u l) /\
    exists s', Now ps (data_after u l) Pf Qf par K (snd r) s' /\ loud_u (data_after u l) (sn_o A s') /\
      Flag (sn_st A s') = last (fst r) (Flag (sn_st A s)) /\ k_P (q_kkt (snd r)) = k_P (q_kkt q)).
Proof.
  induction l as [|[o| |e] l IH]; intros u q s SF V HV HN Hl; cbn [run_actions data_after].
  - wok. cbn. split; auto. exists s. auto.
  - eapply wp_mono; [apply (IH u _ (set_o A s o)); auto|].
    + eapply valid_actions_tail; eauto.
    + destruct HN as [HA Hi Hf Hs]. split; auto; [apply At_set_o; auto|]. destruct Hs; split; assumption.
    + destruct HV as [_ [Hq|Hq]]; [left; auto|right]. cbn. apply Hq. left. reflexivity.
    + intros [codes q2] [H1 [s' [H2 [H3 [H4 H5]]]]]. cbn [fst snd] in *. split; auto. exists s'. auto.
  - wb. destruct HN as [HA Hi Hf Hs].
    eapply wp_mono; [apply (QP_SOLVE_ok A (prob_now u Pf Qf par K) ps q s); auto; apply loud_printable; exact Hl|].
    intros [code q1] [H1 [H2 H3]]. cbn [fst snd] in *. wb.
    eapply wp_mono; [apply (IH u q1 (solveF A (prob_now u Pf Qf par K) s)); auto|].
    + eapply valid_actions_tail; eauto.
    + split; auto; [apply solveF_interior; auto|apply solveF_flag; auto|eapply frame_shares; eauto].
    + destruct Hl as [Hl|Hl]; [left; auto|right; rewrite solveF_verbose; auto].
    + intros [codes q2] [G1 [s' [G2 [G3 [G4 G5]]]]]. cbn [fst snd] in *. wok. cbn [fst snd]. split; auto. exists s'.
      split; auto. split; auto. split; [rewrite G4, H2, last_cons_default; reflexivity|rewrite G5; apply H3].
  - eapply wp_mono; [apply (IH (edit_user u e) (edit_handle q e) s); auto|].
    + apply edit_valid; auto. apply HV. left. reflexivity.
    + apply valid_actions_edit. eapply valid_actions_tail; eauto.
    + eapply Now_edit; eauto. apply HV. left. reflexivity.
    + unfold loud_u. rewrite edit_pe. exact Hl.
    + intros [codes q2] [H1 [s' [H2 [H3 [H4 H5]]]]]. cbn [fst snd] in *. split; auto. exists s'. split; auto. split; auto. split; auto.
      rewrite H5. destruct (edit_rest q e) as [R _]. rewrite R. reflexivity.
Qed.

Lemma run_actions_app l1 : forall q l2, run_actions q (l1 ++ l2) =
  ('(c1, q1) <- run_actions q l1 ;; '(c2, q2) <- run_actions q1 l2 ;; Ok (c1 ++ c2, q2)).
Proof.
  induction l1 as [|[o| |e] l1 IH]; intros q l2; cbn [app run_actions]; auto.
  - cbn. destruct (run_actions q l2) as [[c q']| |]; reflexivity.
  - destruct (QP_SOLVE A q) as [[c q']| |]; cbn; auto. rewrite IH. destruct (run_actions q' l1) as [[c1 q1]| |]; cbn; auto.
    destruct (run_actions q1 l2) as [[c2 q2]| |]; reflexivity.
Qed.

(** The handle setup returns. *)
Lemma Now_setup amd ps u : Safe A ps -> valid_user amd u -> exists q0 Pf Qf par r,
  setup A amd u = Ok q0 /\ Started A u (prob_of A u Pf Qf par) q0 r /\
  Now ps u Pf Qf par (K0 A (prob_of A u Pf Qf par)) q0 (fresh A (prob_of A u Pf Qf par) r).
Proof.
  intros SF V. destruct (proj1 (wp_exists _ _) (setup_ok A amd u (sf_piv _ _ SF) V)) as [q0 [E [B [r HS]]]].
  destruct (sd_B _ _ _ _ _ HS) as [Pf [Qf [par EB]]]. subst B. exists q0, Pf, Qf, par, r. split; auto. split; auto.
  split.
  - exact (sd_at _ _ _ _ _ HS).
  - apply (initF_interior A ps (prob_of A u Pf Qf par) SF).
  - cbn. discriminate.
  - destruct HS. split; auto.
Qed.

Lemma live_ok amd ps u : Safe A ps -> valid_user amd u -> exists q0 Pf Qf par r,
  setup A amd u = Ok q0 /\ Started A u (prob_of A u Pf Qf par) q0 r /\
  forall l, valid_actions u l -> exists codes q s, live amd u l = Ok (codes, q) /\ valid_user amd (data_after u l) /\
    Now ps (data_after u l) Pf Qf par (K0 A (prob_of A u Pf Qf par)) q s /\ Flag (q_stats q) = last codes 3 /\
    loud_u (data_after u l) (sn_o A s).
Proof.
  intros SF V. destruct (Now_setup amd ps u SF V) as [q0 [Pf [Qf [par [r [E [HS HN]]]]]]].
  exists q0, Pf, Qf, par, r. split; auto. split; auto. intros l Hl.
  assert (H : wp (run_actions q0 l) (fun r0 => valid_user amd (data_after u l) /\
    exists s', Now ps (data_after u l) Pf Qf par (K0 A (prob_of A u Pf Qf par)) (snd r0) s' /\ loud_u (data_after u l) (sn_o A s') /\
      Flag (sn_st A s') = last (fst r0) 3 /\ k_P (q_kkt (snd r0)) = k_P (q_kkt q0))).
  { apply (run_actions_ok amd ps Pf Qf par _ l u q0 (fresh A (prob_of A u Pf Qf par) r)); auto. right. cbn. lia. }
  apply wp_exists in H. destruct H as [[codes q] [E2 [H1 [s [H2 [H3 [H4 _]]]]]]]. cbn [fst snd] in *.
  exists codes, q, s. unfold live. rewrite E. cbn [bind]. split; auto. split; auto. split; auto. split; auto.
  rewrite (at_st _ _ _ _ (nw_at _ _ _ _ _ _ _ _ H2)). exact H4.
Qed.

End Data.

(** ** C55: solving again after overwriting the data *)

(** No undefined behaviour, whatever the caller writes, in IEEE doubles ... *)
Theorem C55_safe_binary64 amd u l : valid_user amd u -> valid_actions FA u l ->
  exists codes q, live FA amd u l = Ok (codes, q).
Proof.
  intros V Hl. destruct (live_ok FA amd _ u (Safe_total FA FA_total) V) as [q0 [Pf [Qf [par [r [_ [_ H]]]]]]].
  destruct (H l Hl) as [codes [q [s [E _]]]]. eauto.
Qed.
Print Assumptions C55_safe_binary64.

(** ... and in exact arithmetic. *)
Theorem C55_safe_exact amd u l : valid_user amd u -> valid_actions RA u l ->
  exists codes q, live RA amd u l = Ok (codes, q).
Proof.
  intros V Hl. destruct (live_ok RA amd _ u Safe_R V) as [q0 [Pf [Qf [par [r [_ [_ H]]]]]]].
  destruct (H l Hl) as [codes [q [s [E _]]]]. eauto.
Qed.
Print Assumptions C55_safe_exact.

(** A session of option changes and solves is the special case without writes. *)
Definition plain {A} (c : call A) : action A := match c with SetOptions _ o => Options A o | Solve _ => Run A end.
Theorem C55_extends_sessions A amd u l : live A amd u (map plain l) = session A amd u l.
Proof.
  unfold live, session. destruct (setup A amd u) as [q| |]; cbn [bind]; auto. revert q.
  induction l as [|[o|] l IH]; intros q; cbn [map plain run_actions run_calls]; auto.
  destruct (QP_SOLVE A q) as [[c q']| |]; cbn; auto. rewrite IH. reflexivity.
Qed.

(** Any solve, whatever was written before it: the test, if passed, was passed for the data as they are now, and the
    statistics reported are those of the returned point for the data as they are now. *)
Theorem C55_any_solve (A : Arith) ps amd u l : Safe A ps -> valid_user amd u -> valid_actions A u (l ++ [Run A]) ->
  exists codes q c q', live A amd u l = Ok (codes, q) /\ live A amd u (l ++ [Run A]) = Ok (codes ++ [c], q') /\
    shares A (data_after A u l) q' /\ Flag (q_stats q) = last codes 3 /\ Flag (q_stats q') = c /\ solve_outcome A q c q'.
Proof.
  intros SF V Hq. destruct (live_ok A amd ps u SF V) as [q0 [Pf [Qf [par [r [E [HS HF]]]]]]].
  assert (Hq1 : valid_actions A u l).
  { destruct Hq as [H1 H2]. split; [intros e He; apply H1, in_or_app; auto|].
    destruct H2 as [H|H]; [left; auto|right]. intros o Ho. apply H. apply in_or_app. auto. }
  destruct (HF l Hq1) as [codes [q [s [E1 [V1 [[HA Hi Hf Hs] [Hfl Hlo]]]]]]].
  set (u1 := data_after A u l) in *. set (B := prob_now A u1 Pf Qf par (K0 A (prob_of A u Pf Qf par))) in *.
  pose proof (QP_SOLVE_ok A B ps q s SF HA Hi (loud_printable A B s Hlo) Hf) as HQ.
  apply wp_exists in HQ. destruct HQ as [[c q'] [EQ [HA2 [Hc HFr]]]]. cbn [fst snd] in *.
  pose proof (solveF_interior A B ps s SF Hi) as Hi2.
  exists codes, q, c, q'. split; [exact E1|]. split.
  { unfold live in *. destruct (setup A amd u) as [qa| |]; try discriminate E1. cbn [bind] in *. rewrite run_actions_app, E1.
    cbn [bind run_actions]. rewrite EQ. reflexivity. }
  split; [eapply frame_shares; eauto|]. split; [exact Hfl|]. split; [rewrite (at_st _ _ _ _ HA2), Hc; reflexivity|].
  rewrite Hc. unfold solve_outcome. rewrite (at_st _ _ _ _ HA), (at_o _ _ _ _ HA), (at_st _ _ _ _ HA2).
  destruct (solveF_any A B s) as [[i [Hst [_ [Es [Hk [Hlm Hff]]]]]]|[_ [_ [Hk Hff]]]]; [left|right; split; [exact Hk|exact Hff]].
  destruct (finalF_cases A (stop_snap A B (walk A B i s))) as [Ef Ep0].
  assert (Ep : sn_pt A (solveF A B s) = sn_pt A (walk A B i s)) by (rewrite Es; exact Ep0).
  split; [|split; [|split; [lia|exact Hff]]].
  - apply (test_at_iff A ps SF B q' _ (sn_o A s) HA2 Hi2). rewrite Ep. unfold stops, stopF in *.
    rewrite walk_abstol, walk_reltol in Hst. exact Hst.
  - rewrite <- (at_st _ _ _ _ HA2). eapply (stop_reports A ps); eauto. exists (walk A B i s). split; auto.
    rewrite Es. exact Ef.
Qed.
Print Assumptions C55_any_solve.

Lemma solveF_tol A B s : reltol (sn_o A (solveF A B s)) = reltol (sn_o A s) /\ abstol (sn_o A (solveF A B s)) = abstol (sn_o A s).
Proof.
  unfold solveF. rewrite finalF_o. generalize (Z.to_nat (maxit (sn_o A s))). intros k.
  induction k as [|k IH]; cbn [runF]; auto. destruct (snd (runF A B k s)); auto. unfold iterF at 1 2. destruct (stopF A B _ _); exact IH.
Qed.

(** In exact arithmetic: code 0 after a code other than 0 certifies the point for the data as they are now, also when
    the values of P, A or G were overwritten. *)
Theorem C55_optimal_exact amd u l codes q : valid_user amd u -> valid_actions RA u (l ++ [Run RA]) ->
  last codes 3 <> 0 -> live RA amd u (l ++ [Run RA]) = Ok (codes ++ [0], q) ->
  let now := data_after RA u l in
  passes_here now (q_options q) q /\ fval (q_stats q) = Some (objective (user_qp now) (hx q)).
Proof.
  intros V Hq Hl E now.
  assert (Hq1 : valid_actions RA u l).
  { destruct Hq as [H1 H2]. split; [intros e He; apply H1, in_or_app; auto|].
    destruct H2 as [H|H]; [left; auto|right]. intros o Ho. apply H. apply in_or_app. auto. }
  destruct (live_ok RA amd Rpos u Safe_R V) as [q0 [Pf [Qf [par [r [E0 [HS HF]]]]]]].
  destruct (HF l Hq1) as [codes1 [q1 [s [E1 [V1 [[HA Hi Hf Hs] [Hfl Hlo]]]]]]]. fold now in V1, HA, Hi, Hs, Hlo.
  set (B := prob_now RA now Pf Qf par (K0 RA (prob_of RA u Pf Qf par))) in *.
  pose proof (QP_SOLVE_ok RA B Rpos q1 s Safe_R HA Hi (loud_printable RA B s Hlo) Hf) as HQ.
  apply wp_exists in HQ. destruct HQ as [[c q2] [EQ [HA2 [Hc _]]]]. cbn [fst snd] in *.
  assert (Eq : codes1 = codes /\ c = 0 /\ q2 = q).
  { unfold live in *. rewrite E0 in E, E1. cbn [bind] in *. rewrite run_actions_app, E1 in E. cbn [bind run_actions] in E.
    rewrite EQ in E. cbn in E. injection E as Ec <-. apply app_inj_tail in Ec. destruct Ec. auto. }
  destruct Eq as [-> [-> ->]].
  pose proof (solveF_interior RA B Rpos s Safe_R Hi) as Hi2.
  assert (Hstop : stopF RA B (sn_pt RA (solveF RA B s)) (sn_o RA s) = true /\
     fval (sn_st RA (solveF RA B s)) = Some (fvalF RA B (sn_pt RA (solveF RA B s)))).
  { destruct (solveF_any RA B s) as [[i [Hst [_ [Es [_ [_ _]]]]]]|[_ [_ [Hk Hff]]]].
    - destruct (finalF_cases RA (stop_snap RA B (walk RA B i s))) as [Ef Ep0].
      assert (Ep : sn_pt RA (solveF RA B s) = sn_pt RA (walk RA B i s)) by (rewrite Es; exact Ep0).
      rewrite Ep. split; [unfold stops, stopF in *; rewrite walk_abstol, walk_reltol in Hst; exact Hst|].
      rewrite Es. destruct Ef as [-> | ->]; reflexivity.
    - exfalso. rewrite <- Hc in Hff. rewrite (at_st _ _ _ _ HA) in Hfl. rewrite Hfl in Hff.
      destruct (_ =? _) in Hff; congruence. }
  destruct Hstop as [Hstop Hfv].
  pose proof (prob_dims amd now Pf Qf par V1) as HD. pose proof (qp_of_user now Pf Qf par) as EB.
  destruct (Pt_is _ _ _ (at_pt _ _ _ _ HA2)) as [X1 X2 X3 X4].
  set (pt := sn_pt RA (solveF RA B s)) in *.
  assert (D : dn (user_qp now) = pn B /\ dm (user_qp now) = pm B /\ dp (user_qp now) = pp B) by (rewrite <- EB; auto).
  destruct D as [D1 [D2 D3]].
  split.
  - unfold passes_here. rewrite (at_o _ _ _ _ HA2). destruct (solveF_tol RA B s) as [T1 T2]. cbn [car RA] in T1, T2. cbn [car RA]. rewrite T1, T2.
    rewrite (passes_ext (user_qp now) (hx q) (ptX RA pt) (hy q) (ptY RA pt) (hz q) (ptZ RA pt) (hs q) (ptS RA pt)) by (rewrite ?D1, ?D2, ?D3; assumption).
    rewrite <- EB. apply (stopF_R (prob_of RA now Pf Qf par) HD pt (sn_o RA s)). exact Hstop.
  - rewrite (at_st _ _ _ _ HA2), Hfv. f_equal. transitivity (objective (user_qp now) (ptX RA pt)).
    + rewrite <- EB. exact (fvalF_R (prob_of RA now Pf Qf par) pt).
    + apply objective_ext. rewrite D1. intros i Hi'. symmetry. apply X1. exact Hi'.
Qed.
Print Assumptions C55_optimal_exact.

(** ** The KKT matrix keeps the values of setup *)

Lemma after_dims {A} (l : list (action A)) : forall u, let v := data_after A u l in
  u_n v = u_n u /\ u_m v = u_m u /\ u_pe v = u_pe u /\ u_sigma_d v = u_sigma_d u.
Proof.
  induction l as [|[o| |e] l IH]; intros u; cbn [data_after]; auto; try apply IH.
  cbv zeta. destruct (IH (edit_user u e)) as [-> [-> [-> ->]]]. destruct (edit_dims A u e) as [-> [-> [_ [_ [_ [_ [_ ->]]]]]]].
  rewrite edit_pe. auto.
Qed.

(** Whatever is written, the pattern of the KKT matrix and its entries outside the scaling diagonal stay those
    assembled from the data passed to QP_SETUP. *)
Theorem C55_kkt_kept A ps amd (u : user (car A)) l q0 codes q : Safe A ps -> valid_user amd u -> covered u ->
  valid_actions A u l -> setup A amd u = Ok q0 -> live A amd u l = Ok (codes, q) ->
  let K := k_mat (q_kkt q) in let K0 := k_mat (q_kkt q0) in
  (forall j, 0 <= j <= u_N u -> rd (jc K) j = rd (jc K0) j) /\
  (forall k, 0 <= k < nnz K0 -> rd (ir K) k = rd (ir K0) k) /\
  (forall k, 0 <= k < nnz K0 -> (forall i, 0 <= i < u_m u -> rd (jc K0) (u_n u + u_pe u + i + 1) <> Ok (k + 1)) ->
     rd (pr K) k = rd (pr K0) k).
Proof.
  intros SF V Hc Hl E0 E. cbv zeta. destruct (live_ok A amd ps u SF V) as [q0' [Pf [Qf [par [r [E0' [HS HF]]]]]]].
  rewrite E0 in E0'. injection E0' as <-. destruct (HF l Hl) as [codes' [q' [s [E' [_ [HN _]]]]]].
  rewrite E in E'. injection E' as <- <-. destruct HN as [[HB _ _ _] _ _ _].
  set (B0 := prob_of A u Pf Qf par) in *. set (B := prob_now A (data_after A u l) Pf Qf par (K0 A B0)) in *.
  destruct (after_dims l u) as [D1 [D2 [D3 _]]].
  assert (En : pn B = u_n u) by exact D1. assert (Em : pm B = u_m u) by exact D2. assert (Ep : pp B = u_pe u) by exact D3.
  assert (EN : pN B = u_N u) by (unfold pN, u_N; rewrite En, Em, Ep; reflexivity). assert (EK : K0 A B = K0 A B0) by reflexivity.
  pose proof (started_rows A amd u B0 q0 r V HS Hc) as HR. pose proof (vu_n _ _ V) as Hn. pose proof (vu_m _ _ V) as Hm.
  pose proof (b_p0 _ _ _ HB) as Hp. rewrite Ep in Hp.
  rewrite <- EN, <- En, <- Em, <- Ep. eapply constant_part.
  - rewrite EN, EK. exact (sd_K _ _ _ _ _ HS).
  - destruct (K_rep A amd u q0 (sf_piv _ _ SF) V E0) as [c' [HK1 Hc']]. specialize (Hc' Hc).
    rewrite (kr_nnz _ _ _ _ HK1), <- Hc', EN, EK. reflexivity.
  - exact HB.
  - rewrite EK, En, Em, Ep. intros i Hi. rewrite start_succ by lia.
    replace (K0 A B0 (u_n u + u_pe u + i)) with (tcol (pG B0) (pn B0) i ++ [(pn B0 + pp B0 + i, minus_one A i)])
      by (symmetry; apply (kkt_col_last A (u_n u) (u_pe u)); auto; lia).
    rewrite zlen_app, zlen_cons, zlen_nil. pose proof (zlen_nonneg (tcol (pG B0) (pn B0) i)). lia.
Qed.
Print Assumptions C55_kkt_kept.

(** ** New c, h, b: the method is applied to the new problem *)

Definition vector_edit {F} (e : edit F) : Prop := match e with EditC _ | EditH _ | EditB _ => True | _ => False end.
Definition vectors_only {A} (l : list (action A)) : Prop := forall e, In (Change A e) l -> vector_edit e.

Definition tab {F} (f : Z -> F) (n : Z) : arr F := map (fun i => Some (f i)) (zr 0 n).
Lemma tab_vec {F} (f : Z -> F) n : 0 <= n -> is_vec (tab f n) n f.
Proof.
  intros Hn. split.
  - unfold tab, zlen, zr. rewrite !map_length, seq_length. lia.
  - intros i Hi. unfold rd. rewrite (proj2 (Z.ltb_ge i 0)) by lia. unfold tab, zr. rewrite map_map.
    rewrite (map_nth_error _ (Z.to_nat i) (seq 0 (Z.to_nat (n - 0))) (d := Z.to_nat i)).
    + do 2 f_equal. lia.
    + rewrite (nth_error_nth' _ 0%nat) by (rewrite seq_length; lia). rewrite seq_nth by lia. reflexivity.
Qed.

Section Vectors.
Variable A : Arith.
Notation F := (car A).

Lemma vector_prob (u : user F) e Pf Qf par : vector_edit e ->
  prob_now A (edit_user u e) Pf Qf par (K0 A (prob_of A u Pf Qf par)) = prob_of A (edit_user u e) Pf Qf par.
Proof.
  destruct u as [? ? p ? ? ? [ajc|] [air|] [apr|] ? ? ? ? ? [bb|] ? ?]; destruct e; intros []; unfold prob_now, prob_of, u_pe, u_acol, u_bv, u_eqs; cbn;
    try (destruct (p =? 0)); reflexivity.
Qed.

(** What a vector edit leaves alone. *)
Lemma vector_same (u : user F) e Pf Qf par : vector_edit e -> let B := prob_of A u Pf Qf par in let B' := prob_of A (edit_user u e) Pf Qf par in
  pP B' = pP B /\ pG B' = pG B /\ pA B' = pA B /\ K0 A B' = K0 A B /\ u_perm (edit_user u e) = u_perm u /\
  (covered u -> covered (edit_user u e)).
Proof.
  destruct u as [? ? p ? ? ? [ajc|] [air|] [apr|] ? ? ? ? ? [bb|] ? ?]; destruct e; intros []; unfold prob_of, K0, u_pe, u_acol, u_bv, u_eqs, covered; cbn;
    try (destruct (p =? 0)); repeat split; auto.
Qed.

Lemma Started_edit amd (u : user F) e Pf Qf par q0 r : valid_user amd u -> valid_edit u e -> vector_edit e ->
  Started A u (prob_of A u Pf Qf par) q0 r ->
  exists q0', Started A (edit_user u e) (prob_of A (edit_user u e) Pf Qf par) q0' r.
Proof.
  intros V He Hv HS. set (u' := edit_user u e). set (B' := prob_of A u' Pf Qf par).
  pose proof (edit_valid A amd u e V He) as V'. fold u' in V'.
  destruct (edit_dims A u e) as [E1 [E2 [_ [_ [_ [_ [_ E8]]]]]]]. pose proof (edit_pe A u e) as E9. fold u' in E1, E2, E8, E9.
  pose proof (vector_prob u e Pf Qf par Hv) as EB. fold u' B' in EB.
  set (q1 := edit_handle q0 e).
  assert (SH : shares A u' q1) by (apply edit_shares; destruct HS; split; assumption).
  destruct (edit_rest A q0 e) as [R1 _]. fold q1 in R1.
  assert (HB1 : Base A B' q1).
  { rewrite <- EB. eapply (base_now A amd u u' Pf Qf par _ q0 q1); auto. exact (at_base _ _ _ _ (sd_at _ _ _ _ _ HS)). }
  pose proof (b_n0 _ _ _ HB1) as Hn. pose proof (b_m1 _ _ _ HB1) as Hm. pose proof (b_p0 _ _ _ HB1) as Hp.
  exists (q1 <| q_x := tab (ptX A (initF A B')) (pn B') |> <| q_y := tab (ptY A (initF A B')) (pp B') |>
     <| q_z := tab (ptZ A (initF A B')) (pm B') |> <| q_s := tab (ptS A (initF A B')) (pm B') |>).
  assert (EN : pN B' = pN (prob_of A u Pf Qf par)) by (unfold pN; cbn [B' prob_of pn pp pm]; lia).
  destruct SH as [S1 S2 S3 S4 S5]. destruct HS as [_ T1 T2 T3 T4 _ _ _ _ _ T5].
  assert (EK : q_kkt q1 = q_kkt q0) by (rewrite R1; reflexivity).
  split; cbn; auto.
  - exists Pf, Qf, par. reflexivity.
  - rewrite EN. exact T1.
  - rewrite EN, EK. exact T2.
  - destruct T3 as [_ _ To Ts]. split; cbn.
    + destruct HB1; split; assumption.
    + split; cbn; apply tab_vec; first [exact Hn | exact Hp | refine (Z.le_trans 0 1 _ _ Hm); lia].
    + rewrite R1. exact To.
    + rewrite R1. exact Ts.
  - rewrite EK, EN. destruct (vector_same u e Pf Qf par Hv) as [F1 [F2 [F3 [F4 _]]]]. fold u' in F1, F2, F3, F4. fold B' in F1, F2, F3, F4.
    change (KktRep (k_mat (q_kkt q0)) (pN (prob_of A u Pf Qf par)) (start (pP B') (u_n u') + 2 * start (pG B') (u_n u') + u_m u' + 2 * start (pA B') (u_n u')) (K0 A B')).
    rewrite F1, F2, F3, F4, E1, E2. exact T4.
  - destruct (vector_same u e Pf Qf par Hv) as [_ [_ [_ [_ [F5 _]]]]]. fold u' in F5. rewrite F5, EK. exact T5.
Qed.

Lemma vectors_cons x (l : list (action A)) : vectors_only (x :: l) -> vectors_only l.
Proof. intros H e He. apply H. right. exact He. Qed.

Lemma Started_after amd Pf Qf par r (l : list (action A)) : forall (u : user F) q0, valid_user amd u -> (forall e, In (Change A e) l -> valid_edit u e) ->
  vectors_only l -> Started A u (prob_of A u Pf Qf par) q0 r -> let v := data_after A u l in
  valid_user amd v /\ (exists q0', Started A v (prob_of A v Pf Qf par) q0' r) /\
  prob_now A v Pf Qf par (K0 A (prob_of A u Pf Qf par)) = prob_of A v Pf Qf par /\ (covered u -> covered v).
Proof.
  induction l as [|[o| |e] l IH]; intros u q0 V He Hv HS; cbn [data_after]; cbv zeta.
  - split; auto. split; [exists q0; exact HS|]. split; [reflexivity|auto].
  - apply (IH u q0); eauto using vectors_cons. intros e Hi. apply He. right. exact Hi.
  - apply (IH u q0); eauto using vectors_cons. intros e Hi. apply He. right. exact Hi.
  - assert (Hve : vector_edit e) by (apply Hv; left; reflexivity).
    assert (Hee : valid_edit u e) by (apply He; left; reflexivity).
    destruct (Started_edit amd u e Pf Qf par q0 r V Hee Hve HS) as [q1 H1].
    destruct (vector_same u e Pf Qf par Hve) as [_ [_ [_ [EK [_ Hcv]]]]].
    destruct (IH (edit_user u e) q1) as [V2 [HS2 [EB HC]]]; auto.
    + apply edit_valid; auto.
    + intros e' Hi. apply edit_valid_edit. apply He. right. exact Hi.
    + intros e' Hi. apply Hv. right. exact Hi.
    + split; auto. split; auto. split; auto. rewrite <- EB, EK. reflexivity.
Qed.

End Vectors.

Lemma vectors_qp l : forall u : user R, vectors_only l -> let Q := user_qp u in let Q' := user_qp (data_after RA u l) in
  dn Q' = dn Q /\ dm Q' = dm Q /\ dp Q' = dp Q /\ dP Q' = dP Q /\ dA Q' = dA Q /\ dG Q' = dG Q.
Proof.
  induction l as [|[o| |e] l IH]; intros u Hv; cbv zeta; cbn [data_after]; auto 6.
  - apply IH. intros e He. apply Hv. right. exact He.
  - apply IH. intros e He. apply Hv. right. exact He.
  - destruct (IH (edit_user u e)) as [H1 [H2 [H3 [H4 [H5 H6]]]]]; [intros e' He; apply Hv; right; exact He|].
    assert (Hve : vector_edit e) by (apply Hv; left; reflexivity).
    assert (H : let Q := user_qp u in let Q' := user_qp (edit_user u e) in
      dn Q' = dn Q /\ dm Q' = dm Q /\ dp Q' = dp Q /\ dP Q' = dP Q /\ dA Q' = dA Q /\ dG Q' = dG Q).
    { clear -Hve. destruct u as [? ? p ? ? ? [ajc|] [air|] [apr|] ? ? ? ? ? [bb|] ? ?]; destruct e; destruct Hve; unfold user_qp, u_eqs; cbn;
      try (destruct (p =? 0)%Z); repeat split. }
    destruct H as [G1 [G2 [G3 [G4 [G5 G6]]]]].
    exact (conj (eq_trans H1 G1) (conj (eq_trans H2 G2) (conj (eq_trans H3 G3) (conj (eq_trans H4 G4) (conj (eq_trans H5 G5) (eq_trans H6 G6)))))).
Qed.

(** After any writes to c, h and b, every solve is the documented method on the problem with the vectors now in
    the caller's arrays. *)
Theorem C55_method amd (u : user R) l : valid_user amd u -> covered u -> symmetric (user_qp u) ->
  valid_actions RA u (l ++ [Run RA]) -> vectors_only l ->
  exists codes q c q' k V sg ap ad, live RA amd u l = Ok (codes, q) /\ live RA amd u (l ++ [Run RA]) = Ok (codes ++ [c], q') /\
    solve_meaning (data_after RA u l) q c q' k V sg ap ad.
Proof.
  intros V Hc Hsym Hq Hv.
  assert (Hq1 : valid_actions RA u l).
  { destruct Hq as [H1 H2]. split; [intros e He; apply H1, in_or_app; auto|].
    destruct H2 as [H|H]; [left; auto|right]. intros o Ho. apply H. apply in_or_app. auto. }
  destruct (live_ok RA amd Rpos u Safe_R V) as [q0 [Pf [Qf [par [r [E0 [HS HF]]]]]]].
  destruct (HF l Hq1) as [codes [q [s [E1 [_ [[HA Hi Hf Hs] [Hfl Hlo]]]]]]].
  destruct (Started_after RA amd Pf Qf par r l u q0 V (proj1 Hq1) Hv HS) as [V1 [[q0' HS'] [EB HC]]].
  destruct (vectors_qp l u Hv) as [D1 [_ [_ [D4 _]]]].
  set (now := data_after RA u l) in *. rewrite EB in HA, Hi. set (B := prob_of RA now Pf Qf par) in *.
  pose proof (QP_SOLVE_ok RA B Rpos q s Safe_R HA Hi (loud_printable RA B s Hlo) Hf) as HQ.
  apply wp_exists in HQ. destruct HQ as [[c q'] [EQ [HA2 [Hcc _]]]]. cbn [fst snd] in *.
  assert (Hsym' : symmetric (user_qp now)).
  { intros i j Hi' Hj'. rewrite D4. rewrite D1 in Hi', Hj'. apply Hsym; assumption. }
  destruct (solve_means amd now B q0' r V1 HS' (HC Hc) Hsym' q s q' HA Hi HA2) as [k [Vs [sg [ap [ad HM]]]]].
  exists codes, q, (Flag (q_stats q')), q', k, Vs, sg, ap, ad. split; [exact E1|]. split; [|exact HM].
  unfold live in *. destruct (setup RA amd u) as [qa| |]; try discriminate E1. cbn [bind] in *. rewrite run_actions_app, E1.
  cbn [bind]. cbn [run_actions]. rewrite EQ.
  assert (Ec : c = Flag (q_stats q')) by (rewrite Hcc, (at_st _ _ _ _ HA2); reflexivity). rewrite <- Ec. reflexivity.
Qed.
Print Assumptions C55_method.

(** New values of G are not carried into the KKT matrix: minimise x^2/2 subject to x >= 1, then let the constraint be
    2 x >= 1.  The next solve does not get within the tolerances in five iterations, while a handle set up with the
    new matrix needs two. *)
Definition opt55 : settings (car FA) :=
  (default_settings FA) <| reltol := fdec FA 1 100 |> <| abstol := fdec FA 1 100 |> <| maxit := 5 |>.
Definition twice : edit (car FA) := EditG (fs FA [-2]).

Theorem C55_stale_matrix_refuted : exists (u : user (car FA)) e o q q', valid_user noamd u /\ valid_edit u e /\
  valid_actions FA u [Options FA o; Change FA e; Run FA] /\
  live FA noamd u [Options FA o; Change FA e; Run FA] = Ok ([2], q) /\
  session FA noamd (edit_user u e) [SetOptions FA o; Solve FA] = Ok ([0], q') /\ IterationCount (q_stats q') = 2.
Proof.
  exists (small FA), twice, opt55.
  assert (C1 : match live FA noamd (small FA) [Options FA opt55; Change FA twice; Run FA] with
    | Ok ([c], _) => c =? 2 | _ => false end = true) by (vm_compute; reflexivity).
  assert (C2 : match session FA noamd (edit_user (small FA) twice) [SetOptions FA opt55; Solve FA] with
    | Ok ([c], q) => (c =? 0) && (IterationCount (q_stats q) =? 2) | _ => false end = true) by (vm_compute; reflexivity).
  destruct (live FA noamd (small FA) [Options FA opt55; Change FA twice; Run FA]) as [[[|c [|]] q]| |]; try discriminate C1.
  destruct (session FA noamd (edit_user (small FA) twice) [SetOptions FA opt55; Solve FA]) as [[[|c' [|]] q']| |]; try discriminate C2.
  apply Z.eqb_eq in C1. apply andb_true_iff in C2. destruct C2 as [C2 C3]. apply Z.eqb_eq in C2, C3. subst c c'.
  assert (HE : valid_edit (small FA) twice).
  { intros i Hi. change (0 <= i < 1) in Hi. enum i. eexists. reflexivity. }
  exists q, q'. split; [apply small_valid|]. split; [exact HE|]. split; [|auto].
  split; [intros e [H|[H|[H|[]]]]; try discriminate H; injection H as <-; exact HE|].
  right. intros o [H|[H|[H|[]]]]; try discriminate H. injection H as <-. cbn. lia.
Qed.
Print Assumptions C55_stale_matrix_refuted.

(** A case for C55_method: the same problem in exact arithmetic, solved for two values of c and h in turn. *)
Definition tuned : list (action RA) := [Run RA; Change RA (EditC (fs RA [3])); Run RA; Change RA (EditH (fs RA [-4]))].
Theorem C55_case : valid_user noamd (small RA) /\ covered (small RA) /\ symmetric (user_qp (small RA)) /\
  valid_actions RA (small RA) (tuned ++ [Run RA]) /\ vectors_only tuned /\
  data_after RA (small RA) tuned = (small RA) <| u_c := fs RA [3] |> <| u_h := fs RA [-4] |>.
Proof.
  split; [apply small_valid|]. split; [apply small_covered|].
  split; [intros i j Hi Hj; cbn in Hi, Hj; replace i with 0 by lia; replace j with 0 by lia; reflexivity|].
  split; [split; [|right]|split].
  - intros e H. cbn in H. repeat (destruct H as [H|H]; [try discriminate H; injection H as <-|]); [| |destruct H].
    + intros i Hi. cbn in Hi. enum i. eexists. reflexivity.
    + intros i Hi. cbn in Hi. enum i. eexists. reflexivity.
  - intros o H. cbn in H. repeat (destruct H as [H|H]; [discriminate H|]). destruct H.
  - intros e H. cbn in H. repeat (destruct H as [H|H]; [try discriminate H; injection H as <-; exact I|]). destruct H.
  - reflexivity.
Qed.
