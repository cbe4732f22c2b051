(** C84: exit code 0 in binary64 for the MATLAB interface and for the Simulink blocks. *)
From Coq Require Import ZArith Reals List Lia Lra Bool String.
From RecordUpdate Require Import RecordUpdate.
From Flocq Require Import Core BinarySingleNaN.
From Verif Require Import Res Partial Arith Lists MSparse Csc SemVec Flat MSolver MIface MMatlab TransposeProofs KktProofs LdlNum DenseProofs VecOps Iter SafeInst Setup Session Spec SpecLink QpSpec
  StepSpec StepUniq Api Demo P2_Kkt P4_Always P5_Session P6_Codes StepFacts PointR NewtonR QpFacts P8_Problem P9_Entry P11_Iface P13_Matlab Round P14_Round P22_RoundCodes P43_EndToEnd.
Import ListNotations.
Open Scope Z_scope.
Open Scope res_scope.

(** ** A tolerance that is not a number is never met *)
Lemma flt_nan_r (x y : b64) : flt FA x y = true -> is_nan y = false.
Proof. destruct x as [?|[]| |[] ? ? ?], y as [?|[]| |[] ? ? ?]; intros H; try reflexivity; discriminate H. Qed.
Lemma div_nan (x y : b64) : is_nan (b64_div x y) = false -> is_nan x = false.
Proof. destruct x; try reflexivity. destruct y; intros H; discriminate H. Qed.

Lemma zero_numbers amd u l codes q0 q : valid_user amd u -> new_zero amd u l codes q0 q ->
  is_nan (reltol (q_options q0)) = false /\ is_nan (abstol (q_options q0)) = false.
Proof.
  intros V [Hq E1 E2 Hn].
  destruct (C20_any_solve FA _ amd u l (Safe_total FA FA_total) V Hq) as [cs [qa [c [qb [E1' [E2' [Hf [_ H]]]]]]]].
  rewrite E1 in E1'. injection E1' as <- <-. rewrite E2 in E2'. injection E2' as Ec <-. apply app_inj_tail in Ec. destruct Ec as [_ <-].
  destruct H as [[H1 _]|[_ Hc]]; [|exfalso; rewrite Hf in Hc; destruct (_ =? _) in Hc; [discriminate Hc|congruence]].
  destruct (session_from FA _ (Safe_total FA FA_total) amd u V) as [qs [B [r [_ [_ HF]]]]].
  destruct (HF _ Hq) as [q2 [E [HA Hi]]]. rewrite E2 in E. injection E as _ <-.
  pose proof (test_at_ok FA _ (Safe_total FA FA_total) B q _ (q_options q0) HA Hi) as Hto.
  assert (Hst : stopF FA B (sn_pt FA (snd (callsF FA B (fresh FA B r) (l ++ [Solve FA])))) (q_options q0) = true) by (eapply test_at_fun; eauto).
  destruct (stop_parts B _ _ Hst) as [P1 [_ [_ P4]]]. split; [exact (div_nan _ _ (flt_nan_r _ _ P1))|exact (flt_nan_r _ _ P4)].
Qed.

Lemma in_unit (v : b64) : is_nan v = false -> ~ below FA v 0 -> ~ above FA v 1 -> is_finite v = true /\ (0 <= B2R v <= 1)%R.
Proof.
  unfold below, above. intros N B A.
  assert (Fv : is_finite v = true) by (destruct v as [s|s| |s mx ex Hx]; auto; try discriminate; exfalso; destruct s; [apply B|apply A]; reflexivity).
  split; [exact Fv|]. destruct (ofZ_exact 0 ltac:(cbn; lia)) as [F0 R0]. destruct (ofZ_exact 1 ltac:(cbn; lia)) as [F1 R1]. cbn [flt FA fofZ] in *.
  rewrite Bltb_correct in B by auto. rewrite Bltb_correct in A by auto. rewrite R0 in B. rewrite R1 in A.
  split; apply Rnot_lt_le; intros H; [apply B|apply A]; apply Rlt_bool_true; exact H.
Qed.

Lemma default_tolerance : is_finite (fdec FA 1 1000000 : b64) = true /\ (0 <= B2R (fdec FA 1 1000000 : b64) <= 1)%R.
Proof.
  apply in_unit; try (vm_compute; reflexivity); unfold below, above; intros H; vm_compute in H; discriminate H.
Qed.

(** ** MATLAB *)
Section Mex.
Variables (amd : amd_t) (prhs : list (mxval FA)) (w : mexargs FA) (n m p : Z) (perm : option (arr Z)) (o : settings b64).
Notation u := (user_of FA w n m p perm).
Notation Q := (exact_qp u).
Notation W := (size_qp u).
Notation t := (met u (B2R (reltol o))).

(** Code 0 in the result of a call with three outputs.  Nothing is assumed of the tolerances beyond being accepted (MATLAB's NaN
    is accepted, C50, but never met). *)
Theorem C84_mex r k f yl zl sl : documented FA prhs w -> mex_shapes FA w n m p -> permutation_of FA trunc_FA w (n + m + p) perm ->
  settings_of FA trunc_FA w o -> valid_user amd u -> p <> 0 \/ verbose o <= 0 -> operations u <= 2 ^ 51 ->
  mexFunction FA trunc_FA amd 3 prhs = Ok (Outputs r) -> mr_basic r = Some (0, k) -> mr_adv r = Some (f, yl, zl, sl) ->
  let x := listed (mr_x r) in let y := match yl with Some l => listed l | None => fun _ => 0%R end in let z := listed zl in let s := listed sl in
  (0 <= B2R (reltol o) <= 1)%R /\ (0 <= B2R (abstol o) <= 1)%R /\ finite_data u /\ near_kkt Q W t (gam u) x y z s /\
  (nonneg_list sl -> nonneg_list zl -> near_optimal Q W t (gam u) (B2R (abstol o) + bpow radix2 (-510)) x y z s).
Proof.
  intros HD HS HP HO V HV HK EM EB EA. cbv zeta.
  assert (Hit : 1 <= maxit o).
  { destruct (Z.lt_ge_cases 0 (maxit o)) as [H|H]; [lia|].
    rewrite (C51_fval_uninitialised FA trunc_FA _ (Safe_total FA FA_total) amd prhs w n m p perm o HD HS HP HO V HV H) in EM. discriminate EM. }
  destruct (C51_runs FA trunc_FA _ (Safe_total FA FA_total) amd 3 prhs w n m p perm o ltac:(lia) HD HS HP HO V HV (fun _ => Hit))
    as [code [q [r' [E [EM' [HR _]]]]]].
  rewrite EM in EM'. injection EM' as <-. destruct HR as [Lx [HB HAd]]. cbn [Z.eqb Pos.eqb] in HB, HAd.
  destruct HAd as [f' [y' [z' [s' [EA' [_ [Lz [Ls Ly]]]]]]]]. rewrite EA in EA'. injection EA' as <- <- <- <-.
  rewrite EB in HB. injection HB as <- _.
  pose proof (eqs_of FA w n m p perm HS) as Epe. change (car FA) with b64 in *.
  assert (Hq : quiet_calls FA u ([SetOptions FA o] ++ [Solve FA])).
  { unfold quiet_calls. change (car FA) with b64. destruct HV as [HV|HV]; [left; rewrite Epe; exact HV|right]. intros o' [H|[H|[]]]; [injection H as <-; exact HV|discriminate H]. }
  assert (E0 : exists q0, session FA amd u [SetOptions FA o] = Ok ([], q0) /\ q_options q0 = o).
  { unfold session in *. destruct (setup FA amd u) as [q00| |]; try discriminate E. cbn [bind run_calls]. eexists. split; [reflexivity|]. reflexivity. }
  destruct E0 as [q0 [E0 Eo]]. change (car FA) with b64 in *.
  assert (HZ : new_zero amd u [SetOptions FA o] [] q0 q) by (split; [exact Hq|exact E0|exact E|cbn; lia]).
  destruct (zero_numbers _ _ _ _ _ _ V HZ) as [Nr Na]. rewrite Eo in Nr, Na.
  assert (Tr : is_finite (reltol o) = true /\ (0 <= B2R (reltol o) <= 1)%R).
  { destruct (so_reltol _ _ _ _ HO) as [[_ Ev]|[v [_ [B [A Ev]]]]]; change (car FA) with b64 in *; rewrite Ev in Nr |- *; [exact default_tolerance|]. apply in_unit; auto. }
  assert (Ta : is_finite (abstol o) = true /\ (0 <= B2R (abstol o) <= 1)%R).
  { destruct (so_abstol _ _ _ _ HO) as [[_ Ev]|[v [_ [B [A Ev]]]]]; change (car FA) with b64 in *; rewrite Ev in Na |- *; [exact default_tolerance|]. apply in_unit; auto. }
  destruct Tr as [Fr Tr], Ta as [Fa Ta]. split; [exact Tr|]. split; [exact Ta|].
  rewrite <- Eo in Fr, Fa. pose proof (zero_says amd u _ _ q0 q V HZ HK Fr Fa) as TS. rewrite Eo in TS.
  pose proof TS as [Gu [FD [Hr [NK _]]]]. split; [exact FD|].
  destruct (exact_dims u) as [D1 [D2 D3]]. rewrite Epe in D3. cbn [user_of u_n u_m] in D1, D2.
  assert (Xx : eq_on (dn Q) (vec_of (q_x q)) (listed (mr_x r))) by (rewrite D1; apply lists_listed; exact Lx).
  assert (Xz : eq_on (dm Q) (vec_of (q_z q)) (listed zl)) by (rewrite D2; apply lists_listed; exact Lz).
  assert (Xs : eq_on (dm Q) (vec_of (q_s q)) (listed sl)) by (rewrite D2; apply lists_listed; exact Ls).
  assert (Xy : eq_on (dp Q) (vec_of (q_y q)) (match yl with Some l => listed l | None => fun _ => 0%R end)).
  { rewrite D3. destruct (Z.eqb_spec p 0) as [->|Hp]; [intros i Hi; lia|]. destruct Ly as [y' [-> Ly]]. apply lists_listed. exact Ly. }
  assert (SQ : same_qp Q Q) by (split; auto). assert (SW : same_qp W W) by (split; auto).
  assert (DW : dn W = dn Q /\ dm W = dm Q /\ dp W = dp Q).
  { unfold size_qp, exact_qp, user_qp, user_map, u_eqs, user_of. cbn [u_n u_m u_p u_Apr u_Ajc u_Air u_b]. destruct (ma_eq w) as [[a b]|]; cbn [option_map]; [destruct (p =? 0)|]; auto. }
  destruct DW as [DW1 [DW2 DW3]].
  assert (Gg : (0 <= gam u <= gam u)%R) by (split; [apply Rlt_le, (proj1 Gu)|apply Rle_refl]).
  assert (Ht : (0 <= t <= t)%R) by (split; [exact (proj1 (met_grows (gam u) (gam u) _ (proj1 Tr) Gg (proj2 Gu)))|apply Rle_refl]).
  split; [exact (near_kkt_same _ _ _ _ _ _ _ _ _ _ _ _ _ _ _ _ SQ SW DW1 DW2 DW3 Ht Gg Xx Xy Xz Xs NK)|].
  intros Ns Nz. apply (lists_nonneg _ _ _ Ls) in Ns. apply (lists_nonneg _ _ _ Lz) in Nz.
  refine (near_optimal_same _ _ _ _ _ _ _ _ _ _ _ _ _ _ _ _ _ SQ SW DW1 DW2 DW3 Ht Gg Xx Xy Xz Xs _ _).
  - rewrite D2. apply Sum_nonneg. intros i Hi. apply Rmult_le_pos; eapply nonneg_entry; eauto.
  - unfold near_optimal. rewrite D1, D2, D3. pose proof (vu_m _ _ V) as Vm. cbn [user_of u_m] in Vm.
    destruct (says_near_optimal u o q (vec_of (q_x q)) Vm TS Ns Nz) as [H1 [H2 _]]. rewrite Epe in H2.
    split; [exact H1|]. split; [exact H2|]. intros HSy HPs x' HF.
    pose proof (proj2 (proj2 (says_near_optimal u o q x' Vm TS Ns Nz)) HSy HPs HF) as H3. rewrite Epe in H3. exact H3.
Qed.
End Mex.
Print Assumptions C84_mex.

(** ** Simulink *)

(** Code 0 on the exit port: the problem on the input ports is finite, and [x], whose first three components are on the output port,
    nearly satisfies the optimality conditions (with the other vectors of the solver, which the block does not output). *)
Definition block_says (amd : amd_t) (D : dense_user b64) (dP dA dG : Z -> Z -> b64) (out : blockout FA) : Prop :=
  let Q := dense_data B2R D dP dA dG in let W := dense_data (fun v => Rabs (B2R v)) D dP dA dG in
  let g := slack_of (dense_operations D) in let t := met_of g (B2R (fdec FA 1 1000000)) in
  dense_finite D dP dA dG /\ exists q, dense_session FA amd D [Solve FA] = Ok ([0], q) /\
  (forall i, 0 <= i < 3 -> listed (bo_x out) i = vec_of (q_x q) i) /\
  near_kkt Q W t g (vec_of (q_x q)) (vec_of (q_y q)) (vec_of (q_z q)) (vec_of (q_s q)) /\
  (nonneg_vec (q_s q) (d_m D) -> nonneg_vec (q_z q) (d_m D) ->
   near_optimal Q W t g (B2R (fdec FA 1 1000000) + bpow radix2 (-510)) (vec_of (q_x q)) (vec_of (q_y q)) (vec_of (q_z q)) (vec_of (q_s q))).

Lemma block_zero amd D dP dA dG r out : valid_dense FA amd D dP dA dG -> outputs_first FA amd D r -> r = Ok out -> bo_exit out = 0 ->
  dense_operations D <= 2 ^ 51 -> block_says amd D dP dA dG out.
Proof.
  intros V [code [q [out' [E [-> [Lx [Ec _]]]]]]] EO Eb HK. injection EO as ->. rewrite <- Ec, Eb in E.
  assert (Hq : quiet_dense D ([] ++ [Solve FA])) by (right; intros o' [H|[]]; discriminate H).
  assert (E0 : exists q0, dense_session FA amd D [] = Ok ([], q0) /\ q_options q0 = default_settings FA).
  { unfold dense_session in *. destruct (dense_setup FA amd D) as [q00| |] eqn:ED; try discriminate E. exists q00. split; [reflexivity|].
    destruct (C34_dense_is_sparse FA amd D dP dA dG V) as [u [SF [VU _]]].
    destruct (run_once FA _ (Safe_total FA FA_total) amd u (default_settings FA) VU) as [q0 [_ [_ [E0 [Eo _]]]]].
    { right. intros o' [H|[H|[]]]; [injection H as <-; cbn; lia|discriminate H]. }
    assert (EH : dense_setup FA amd D = Ok q0) by (rewrite <- E0; apply (C34_same_handle FA amd _ _ dP dA dG); auto; [apply V|pose proof (vd_m _ _ _ _ _ _ V); lia]).
    rewrite ED in EH. injection EH as <-. exact Eo. }
  destruct E0 as [q0 [E0 Eo]].
  assert (Fr : is_finite (reltol (q_options q0)) = true) by (rewrite Eo; vm_compute; reflexivity).
  assert (Fa : is_finite (abstol (q_options q0)) = true) by (rewrite Eo; vm_compute; reflexivity).
  destruct (C82_dense amd D dP dA dG [] [] q0 q V Hq E0 E ltac:(cbn; lia) HK Fr Fa) as [H1 [H2 H3]]. rewrite Eo in H2, H3.
  split; [exact H1|]. exists q. split; [exact E|]. split; [|split; [exact H2|exact H3]].
  intros i Hi. symmetry. apply (lists_listed _ _ _ Lx). exact Hi.
Qed.

Theorem C84_block amd iP ic iG ih dP dA dG out : let D := block FA iP ic iG ih in valid_dense FA amd D dP dA dG -> 3 <= zlen ic ->
  dense_operations D <= 2 ^ 51 -> mdlOutputs FA amd iP ic iG ih = Ok out -> bo_exit out = 0 -> block_says amd D dP dA dG out.
Proof. intros D V Hn HK E Eb. eapply block_zero; eauto. exact (C53_block FA _ (Safe_total FA FA_total) amd iP ic iG ih dP dA dG V Hn). Qed.
Theorem C84_block_e amd iP ic iA ib iG ih dP dA dG out : let D := block_e FA iP ic iA ib iG ih in valid_dense FA amd D dP dA dG -> 3 <= zlen ic ->
  dense_operations D <= 2 ^ 51 -> mdlOutputs_e FA amd iP ic iA ib iG ih = Ok out -> bo_exit out = 0 -> block_says amd D dP dA dG out.
Proof. intros D V Hn HK E Eb. eapply block_zero; eauto. exact (C53_block_e FA _ (Safe_total FA FA_total) amd iP ic iA ib iG ih dP dA dG V Hn). Qed.
Print Assumptions C84_block.
Print Assumptions C84_block_e.

(** ** Cases *)

(** minimise x^2/2 subject to x >= 1 from MATLAB, tolerances 1/100. *)
Definition one_args : mexargs FA :=
  mkMexargs (sp FA 1 1 [0; 1] [0] [1]) (dv FA (fs FA [0])) None (sp FA 1 1 [0; 1] [0] [-1]) (dv FA (fs FA [-1]))
    (Some (mkVal (mkMx false false false 1 1 [] [] []) (struct [("RELTOL", dv FA [Some (fdec FA 1 100)]); ("ABSTOL", dv FA [Some (fdec FA 1 100)])]%string))).
Definition one_call : list (mxval FA) :=
  [arg (ma_P one_args); arg (ma_c one_args); arg (ma_G one_args); arg (ma_h one_args)] ++ match ma_opts one_args with Some o => [o] | None => [] end.

Definition check84 (x : res (mexout FA)) : bool :=
  match x with
  | Ok (Outputs r) => match mr_basic r, mr_adv r with
    | Some (c, k), Some (_, None, zl, sl) => (c =? 0) && (1 <=? k) && forallb pos_b zl && forallb pos_b sl && (zlen zl =? 1)
    | _, _ => false end
  | _ => false end.
Lemma run84_ok : check84 (mexFunction FA trunc_FA amd_id 3 one_call) = true.
Proof. vm_compute. reflexivity. Qed.

Lemma one_valid : valid_user amd_id (user_of FA one_args 1 1 0 None).
Proof.
  constructor; cbn [user_of one_args ma_P ma_G ma_c ma_h ma_eq sp dv mx_jc mx_ir mx_pr u_n u_m u_p u_Pjc u_Pir u_Ppr u_Gjc u_Gir u_Gpr u_c u_h u_perm].
  - lia.
  - lia.
  - csc_concrete.
  - csc_concrete.
  - intros ajc air apr bb Eq. discriminate Eq.
  - intros i Hi. enum i; eexists; reflexivity.
  - intros i Hi. enum i; eexists; reflexivity.
  - exists 0, 0, (fofZ FA 1). split; [lia|]. left. exists 0, 1, 0. cbn. repeat split; auto; lia.
  - apply amd_id_ok. vm_compute. discriminate.
Qed.

Lemma C84_case : exists r k f zl sl, documented FA one_call one_args /\ mex_shapes FA one_args 1 1 0 /\ permutation_of FA trunc_FA one_args (1 + 1 + 0) None /\
  settings_of FA trunc_FA one_args opt54 /\ valid_user amd_id (user_of FA one_args 1 1 0 None) /\ verbose opt54 <= 0 /\
  operations (user_of FA one_args 1 1 0 None) <= 2 ^ 51 /\ mexFunction FA trunc_FA amd_id 3 one_call = Ok (Outputs r) /\ mr_basic r = Some (0, k) /\ 1 <= k /\
  mr_adv r = Some (f, None, zl, sl) /\ nonneg_list sl /\ nonneg_list zl.
Proof.
  pose proof run84_ok as C. destruct (mexFunction FA trunc_FA amd_id 3 one_call) as [[| |r]| |] eqn:E; try discriminate C. cbn [check84] in C.
  destruct (mr_basic r) as [[c k]|] eqn:EB; [|discriminate C]. destruct (mr_adv r) as [[[[f [|]] zl] sl]|] eqn:EA; try discriminate C.
  repeat (apply andb_prop in C; destruct C as [C ?]). apply Z.eqb_eq in C. subst c.
  assert (N : forall l, forallb pos_b l = true -> nonneg_list l) by (intros l Hl v Hv; apply pos_b_ok; rewrite forallb_forall in Hl; auto).
  exists r, k, f, zl, sl. split; [exists (firstn 4 one_call); split; reflexivity|].
  split; [unfold mex_shapes, sparse_matrix, dense_vector; cbn; repeat split; auto; lia|]. split; [reflexivity|].
  split; [apply C50_settings; reflexivity|]. split; [exact one_valid|].
  split; [vm_compute; discriminate|]. split; [vm_compute; discriminate|]. split; [reflexivity|]. split; [exact EB|]. split; [apply Z.leb_le; assumption|].
  split; [exact EA|]. auto.
Qed.

(** minimise (x1^2 + x2^2 + x3^2)/2 subject to x1 >= 1 in a block. *)
Definition bP := fs FA [1; 0; 0; 0; 1; 0; 0; 0; 1]. Definition bc := fs FA [0; 0; 0]. Definition bG := fs FA [-1; 0; 0]. Definition bh := fs FA [-1].
Definition check84b (x : res (blockout FA)) : bool := match x with Ok out => (bo_exit out =? 0) && (1 <=? bo_iter out) && (zlen (bo_x out) =? 3) | _ => false end.
Lemma run84b_ok : check84b (mdlOutputs FA amd_id bP bc bG bh) = true.
Proof. vm_compute. reflexivity. Qed.

Lemma C84_block_case : exists out, valid_dense FA amd_id (block FA bP bc bG bh) (entriesF [[1; 0; 0]; [0; 1; 0]; [0; 0; 1]]) (entriesF []) (entriesF [[-1; 0; 0]]) /\
  3 <= zlen bc /\ dense_operations (block FA bP bc bG bh) <= 2 ^ 51 /\ mdlOutputs FA amd_id bP bc bG bh = Ok out /\ bo_exit out = 0 /\ 1 <= bo_iter out.
Proof.
  pose proof run84b_ok as C. destruct (mdlOutputs FA amd_id bP bc bG bh) as [out| |] eqn:E; try discriminate C. cbn [check84b] in C.
  repeat (apply andb_prop in C; destruct C as [C ?]). exists out. split.
  { split; cbn [block d_n d_m d_c d_h d_perm].
    - vm_compute; discriminate.
    - vm_compute; discriminate.
    - intros i j Hi Hj. change (zlen bc) with 3 in *; change (zlen bh) with 1 in *. enum i; enum j; reflexivity.
    - intros i j Hi Hj. change (zlen bc) with 3 in *; change (zlen bh) with 1 in *. enum i; enum j; reflexivity.
    - intros a bb Eq. discriminate.
    - intros i Hi. change (zlen bc) with 3 in *; change (zlen bh) with 1 in *. enum i; eexists; reflexivity.
    - intros i Hi. change (zlen bc) with 3 in *; change (zlen bh) with 1 in *. enum i; eexists; reflexivity.
    - exists 0, 0. split; [vm_compute; split; [discriminate|reflexivity]|]. left. split; [vm_compute; split; [discriminate|reflexivity]|]. vm_compute. reflexivity.
    - apply amd_id_ok. vm_compute. discriminate. }
  split; [vm_compute; discriminate|]. split; [vm_compute; discriminate|]. split; [reflexivity|]. split; [apply Z.eqb_eq; assumption|apply Z.leb_le; assumption].
Qed.
