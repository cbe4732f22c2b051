(** C79: data, tolerances and answers that are not finite, in binary64.  Nothing is assumed about the size of the
    problem or about rounding errors. *)
From Coq Require Import ZArith Reals List Lia Lra Bool.
From RecordUpdate Require Import RecordUpdate.
From Flocq Require Import Core BinarySingleNaN.
From Verif Require Import Res Partial Arith Lists MSparse Csc SemVec Flat TransposeProofs KktProofs MLdl LdlSym LdlNum LdlR
  LdlFun MSolver VecOps Iter SafeInst Setup Session Spec SpecLink QpSpec NewtonR PointR Api P2_Kkt P4_Always P5_Session P6_Codes Demo
  StepFacts QpFacts Round P14_Round P22_RoundCodes P31_Options P9_Entry.
Import ListNotations.
Open Scope Z_scope.

(** ** Comparisons that succeed have finite left sides *)
Lemma flt_left (x y : b64) : flt FA x y = true -> x <> B754_infinity true -> is_finite x = true.
Proof.
  intros H Nx. destruct x as [sx|[]| |sx mx ex Hx]; try reflexivity; try congruence; destruct y as [[]|[]| |[] my ey Hy]; cbn in H; discriminate.
Qed.

Lemma norm_fin (v : Z -> b64) (k : Z) (t : b64) : flt FA (bsqrt (dotF FA v v k)) t = true -> forall i, 0 <= i < k -> is_finite (v i) = true.
Proof.
  intros H i Hi. pose proof (flt_left _ _ H (sqrt_not_minus_inf _)) as F. destruct (sqrt_val _ F) as [F1 _]. rewrite dotF_terms in F1.
  destruct (folda_fin _ _ F1) as [_ G]. apply (G (v i, v i)). unfold dot_terms. apply in_map_iff. exists i. split; auto. apply in_zr. lia.
Qed.

(** A positive test value needs a positive tolerance. *)
Lemma overflow_neg (x : b64) : B2SF x = binary_overflow 53 1024 mode_NE true -> x = B754_infinity true.
Proof. destruct x as [s|s| |s m e H]; cbn; intros E; try discriminate. injection E as ->. reflexivity. Qed.

Lemma s3_shape : is_finite_strict s3 = true /\ Bsign s3 = false.
Proof. split; vm_compute; reflexivity. Qed.

Lemma tol_positive_gen (d t r3 : b64) : is_finite_strict r3 = true -> Bsign r3 = false -> flt FA (bsqrt d) (b64_div t r3) = true -> flt FA (f0 FA) t = true.
Proof.
  intros K1 K2 H. pose proof (flt_left _ _ H (sqrt_not_minus_inf _)) as F. destruct (sqrt_val _ F) as [_ [_ [N _]]].
  assert (S3 : exists m e B, r3 = B754_finite false m e B).
  { destruct r3 as [?|?| |s m e B]; try discriminate K1. cbn in K2. subst s. eauto. }
  destruct S3 as [m3 [e3 [B3 S3]]]. clear K1 K2. set (x := bsqrt d) in *. clearbody x.
  assert (P3 : (0 < B2R r3)%R) by (rewrite S3; apply F2R_gt_0; reflexivity).
  destruct t as [st|[]| |[] mt et Bt]; cbn [flt FA]; try reflexivity.
  - exfalso. rewrite S3 in H. cbn [b64_div Bdiv] in H. destruct x as [sx|[]| |[] mx ex Hx]; try discriminate; try (destruct st; discriminate).
    exfalso. revert N. cbn. apply Rlt_not_le. apply F2R_lt_0. reflexivity.
  - exfalso. rewrite S3 in H. cbn [b64_div Bdiv xorb] in H. destruct x as [sx|[]| |[] mx ex Hx]; discriminate.
  - exfalso. destruct x as [sx|[]| |[] mx ex Hx]; discriminate.
  - exfalso. set (t := B754_finite true mt et Bt) in *. assert (Nt : (B2R t < 0)%R) by (apply F2R_lt_0; reflexivity).
    pose proof (@Bdiv_correct 53 1024 prec64 emax64 mode_NE t r3 ltac:(lra)) as C. change (Bdiv mode_NE t r3) with (b64_div t r3) in C.
    assert (Q : (B2R t / B2R r3 <= 0)%R).
    { unfold Rdiv. assert (0 < / B2R r3)%R by (apply Rinv_0_lt_compat; exact P3). nra. }
    destruct (Rlt_bool _ _) eqn:E.
    + destruct C as [C1 [C2 _]]. change (is_finite t) with true in C2. cbn [flt FA] in H. rewrite Bltb_correct in H by assumption.
      revert H. case Rlt_bool_spec; [|discriminate]. intros L _. rewrite C1 in L.
      assert (round radix2 (SpecFloat.fexp 53 1024) (round_mode mode_NE) (B2R t / B2R r3) <= 0)%R
        by (apply round_le_generic; [apply fexp_correct; exact prec64|apply valid_rnd_round_mode|apply generic_format_0|exact Q]).
      lra.
    + assert (X : b64_div t r3 = B754_infinity true).
      { assert (Sx : xorb (Bsign t) (Bsign r3) = true) by (rewrite S3; reflexivity). rewrite Sx in C. generalize dependent (b64_div t r3). intros y H C. apply overflow_neg. exact C. }
      rewrite X in H. destruct x as [sx|[]| |[] mx ex Hx]; discriminate.
Qed.

Lemma tol_positive (d t : b64) : flt FA (bsqrt d) (b64_div t s3) = true -> flt FA (f0 FA) t = true.
Proof. apply tol_positive_gen; apply s3_shape. Qed.

(** ** The stopping test reads every number of the problem *)
Section Test.
Variable B : prob b64.
Variable pt : point FA.
Notation n := (pn B).
Notation m := (pm B).
Notation p := (pp B).
Hypothesis HP : rows_in n n (pP B).
Hypothesis HG : rows_in m n (pG B).
Hypothesis HA : rows_in p n (pA B).
Variable o : settings b64.
Hypothesis Hst : stopF FA B pt o = true.

Lemma test_finite :
  (forall i j v, 0 <= j < n -> In (i, v) (pP B j) -> is_finite v = true /\ is_finite (ptX FA pt j) = true) /\
  (forall i j v, 0 <= j < n -> In (i, v) (pG B j) -> is_finite v = true /\ is_finite (ptX FA pt j) = true /\ is_finite (ptZ FA pt i) = true) /\
  (p <> 0 -> forall i j v, 0 <= j < n -> In (i, v) (pA B j) -> is_finite v = true /\ is_finite (ptX FA pt j) = true /\ is_finite (ptY FA pt i) = true) /\
  (forall j, 0 <= j < n -> is_finite (pc B j) = true) /\
  (forall i, 0 <= i < m -> is_finite (ph B i) = true /\ is_finite (ptS FA pt i) = true) /\
  (p <> 0 -> forall i, 0 <= i < p -> is_finite (pb B i) = true).
Proof.
  destruct (stop_parts B pt o Hst) as [S1 [S2 [S3 S4]]].
  pose proof (norm_fin _ _ _ S1) as F1. pose proof (norm_fin _ _ _ S2) as F2.
  assert (X : forall (col : cols b64) i j v, 0 <= j < n -> In (i, v) (col j) -> In (ptX FA pt j, v) (mult_terms col n (ptX FA pt) i)).
  { intros col i j v Hj Hin. unfold mult_terms. apply in_flat_map. exists j. split; [apply in_zr; lia|]. apply in_map_iff. exists (i, v). split; auto.
    apply filter_In. split; auto. cbn [fst]. apply Z.eqb_refl. }
  assert (T : forall (col : cols b64) w i j v, In (i, v) (col j) -> In (v, w i) (tmult_terms col w j)).
  { intros col w i j v Hin. unfold tmult_terms. apply in_map_iff. exists (i, v). auto. }
  assert (RX : forall j, 0 <= j < n -> 
     is_finite (tmultF FA (pG B) (ptZ FA pt) j (multF FA (pP B) n (ptX FA pt) j (f0 FA))) = true /\
     (p <> 0 -> is_finite (tmultF FA (pA B) (ptY FA pt) j (tmultF FA (pG B) (ptZ FA pt) j (multF FA (pP B) n (ptX FA pt) j (f0 FA)))) = true) /\ is_finite (pc B j) = true).
  { intros j Hj. specialize (F1 j Hj). unfold rxF, axpyF in F1. change (@pp (car FA) B) with (@pp b64 B) in F1. destruct (add_fin _ _ F1) as [G1 G2]. destruct (mul_fin _ _ G2) as [G3 _].
    destruct (Z.eqb_spec p 0) as [E|E]; [split; [exact G1|split; [congruence|exact G3]]|].
    split; [|split; [intros _; exact G1|exact G3]]. rewrite tmultF_terms in G1. apply (foldm_fin _ _ G1). }
  assert (RZ : forall i, 0 <= i < m -> is_finite (multF FA (pG B) n (ptX FA pt) i (f0 FA)) = true /\ is_finite (ph B i) = true /\ is_finite (ptS FA pt i) = true).
  { intros i Hi. specialize (F2 i Hi). unfold rzF in F2. destruct (add_fin _ _ F2) as [G1 G2]. destruct (sub_fin _ _ G2). auto. }
  split; [|split; [|split; [|split; [|split]]]].
  - intros i j v Hj Hin. destruct (RX i (HP j i v Hj Hin)) as [G _]. rewrite tmultF_terms in G. destruct (foldm_fin _ _ G) as [G' _].
    rewrite multF_terms in G'. destruct (foldm_fin _ _ G') as [_ G2]. specialize (G2 _ (X (pP B) i j v Hj Hin)). cbn [fst snd] in G2. tauto.
  - intros i j v Hj Hin. destruct (RX j Hj) as [G _]. rewrite tmultF_terms in G. destruct (foldm_fin _ _ G) as [_ G1].
    specialize (G1 _ (T (pG B) (ptZ FA pt) i j v Hin)). destruct (RZ i (HG j i v Hj Hin)) as [G' _]. rewrite multF_terms in G'. destruct (foldm_fin _ _ G') as [_ G2].
    specialize (G2 _ (X (pG B) i j v Hj Hin)). cbn [fst snd] in *. tauto.
  - intros E i j v Hj Hin. destruct (RX j Hj) as [_ [G _]]. specialize (G E). rewrite tmultF_terms in G. destruct (foldm_fin _ _ G) as [_ G1].
    specialize (G1 _ (T (pA B) (ptY FA pt) i j v Hin)). pose proof (norm_fin _ _ _ (S3 E)) as F3.
    specialize (F3 i (HA j i v Hj Hin)). unfold ryF, axpyF in F3. destruct (add_fin _ _ F3) as [G' _]. rewrite multF_terms in G'. destruct (foldm_fin _ _ G') as [_ G2].
    specialize (G2 _ (X (pA B) i j v Hj Hin)). cbn [fst snd] in *. tauto.
  - intros j Hj. apply (RX j Hj).
  - intros i Hi. apply (RZ i Hi).
  - intros E i Hi. pose proof (norm_fin _ _ _ (S3 E)) as F3. specialize (F3 i Hi). unfold ryF, axpyF in F3.
    destruct (add_fin _ _ F3) as [_ G']. apply (mul_fin _ _ G').
Qed.

Lemma test_tolerances : flt FA (f0 FA) (reltol o) = true /\ is_nan (abstol o) = false.
Proof.
  destruct (stop_parts B pt o Hst) as [S1 [_ [_ S4]]]. split; [exact (tol_positive _ _ S1)|].
  destruct (abstol o) as [?|?| |? ? ? ?]; try reflexivity. destruct (nmuF FA B pt) as [?|[]| |[] ? ? ?]; discriminate S4.
Qed.
End Test.

(** ** From the functions to the caller's arrays *)

(** What the answer consists of, where the problem uses it: the slacks, and the variables and multipliers of rows and
    columns with stored coefficients. *)
Record finite_answer (u : user b64) (q : qp b64) : Prop := mkFiniteAnswer {
  fa_s : forall i, 0 <= i < u_m u -> is_finite (get B754_nan (q_s q) i) = true;
  fa_x : forall i j v, 0 <= j < u_n u -> stored (u_Pjc u) (u_Pir u) (u_Ppr u) i j v \/ stored (u_Gjc u) (u_Gir u) (u_Gpr u) i j v ->
    is_finite (get B754_nan (q_x q) j) = true;
  fa_z : forall i j v, 0 <= j < u_n u -> stored (u_Gjc u) (u_Gir u) (u_Gpr u) i j v -> is_finite (get B754_nan (q_z q) i) = true;
  fa_eq : forall ajc air apr bb i j v, u_eqs u = Some (ajc, air, apr, bb) -> 0 <= j < u_n u -> stored ajc air apr i j v ->
    is_finite (get B754_nan (q_x q) j) = true /\ is_finite (get B754_nan (q_y q) i) = true
}.

Section User.
Variables (amd : amd_t) (u : user b64) (B : prob b64) (q0 : qp b64) (r : Z).
Hypothesis V : valid_user amd u.
Hypothesis HS : Started FA u B q0 r.

Lemma shape : pn B = u_n u /\ pm B = u_m u /\ pp B = u_pe u /\ rows_in (pn B) (pn B) (pP B) /\ rows_in (pm B) (pn B) (pG B) /\ rows_in (pp B) (pn B) (pA B) /\
  (forall i j v, 0 <= j < u_n u -> stored (u_Pjc u) (u_Pir u) (u_Ppr u) i j v -> In (i, v) (pP B j)) /\
  (forall i j v, 0 <= j < u_n u -> stored (u_Gjc u) (u_Gir u) (u_Gpr u) i j v -> In (i, v) (pG B j)) /\
  (forall ajc air apr bb, u_eqs u = Some (ajc, air, apr, bb) -> u_p u = u_pe u /\ pp B <> 0 /\
    (forall i j v, 0 <= j < u_n u -> stored ajc air apr i j v -> In (i, v) (pA B j)) /\ pb B = get (f0 FA) bb).
Proof.
  destruct (sd_B _ _ _ _ _ HS) as [Pf [Qf [par EB]]].
  pose proof V as V'. destruct V' as [Vn Vm [nzP VP] [nzG VG] VA Vc Vh Vs Vp].
  destruct (csc_link (f0 FA) _ _ _ _ _ _ Vn VP) as [CP [RP SP]].
  destruct (csc_link (f0 FA) _ _ _ _ _ _ Vn VG) as [CG [RG SG]].
  assert (RA' : rows_in (u_pe u) (u_n u) (u_acol FA u)).
  { change (car FA) with b64 in *. unfold u_pe, u_acol. change (car FA) with b64 in *. destruct (@u_eqs b64 u) as [[[[ajc air] apr] bb]|] eqn:Ee; [|intros j r' v _ []].
    destruct (VA _ _ _ _ eq_refl) as [_ [[nz Hc] _]]. destruct (csc_link (f0 FA) _ _ _ _ _ _ Vn Hc) as [_ [R1 R2]]. exact R1. }
  rewrite EB. cbn [prob_of pP pG pA pn pm pp pb]. do 3 (split; [reflexivity|]). split; [exact RP|]. split; [exact RG|]. split; [exact RA'|].
  split; [intros i j v Hj Hv; apply (Csc_stored _ _ _ _ _ _ _ _ CP Hj); exact Hv|].
  split; [intros i j v Hj Hv; apply (Csc_stored _ _ _ _ _ _ _ _ CG Hj); exact Hv|].
  intros ajc air apr bb Ee. destruct (VA _ _ _ _ Ee) as [_ [[nz Hc] _]]. destruct (csc_link (f0 FA) _ _ _ _ _ _ Vn Hc) as [CA _].
  assert (Hup : u_pe u = u_p u) by (unfold u_pe; rewrite Ee; reflexivity).
  split; [auto|]. split.
  - enough (X : @u_p b64 u <> 0) by exact (fun Y => X (eq_trans (eq_sym Hup) Y)). unfold u_eqs in Ee. destruct (u_Apr u), (u_Ajc u), (u_Air u), (u_b u); try discriminate Ee. destruct (Z.eqb_spec (u_p u) 0); [discriminate Ee|auto].
  - unfold u_acol, u_bv. change (car FA) with b64. rewrite Ee. split; [|reflexivity]. intros i j v Hj Hv. apply (Csc_stored _ _ _ _ _ _ _ _ CA Hj). exact Hv.
Qed.

Lemma stop_data pt o : stopF FA B pt o = true -> finite_data u.
Proof.
  intros Hst. destruct shape as [Bn [Bm [Bp [R1 [R2 [R3 [S1 [S2 S3]]]]]]]]. destruct (test_finite B pt R1 R2 R3 o Hst) as [F1 [F2 [F3 [F4 [F5 F6]]]]].
  destruct (sd_B _ _ _ _ _ HS) as [Pf [Qf [par EB]]].
  split; [|split; [|split; [|split]]].
  - intros i j v Hj Hv. apply (F1 i j v); [lia|]. apply S1; auto.
  - intros i j v Hj Hv. apply (F2 i j v); [lia|]. apply S2; auto.
  - intros j v Hj Hv. specialize (F4 j ltac:(lia)). rewrite EB in F4. exact (fin_get _ _ _ _ Hv F4).
  - intros j v Hj Hv. destruct (F5 j ltac:(lia)) as [F5' _]. rewrite EB in F5'. exact (fin_get _ _ _ _ Hv F5').
  - intros ajc air apr bb Ee. destruct (S3 _ _ _ _ Ee) as [Hup [Hp0 [SA Eb]]]. split.
    + intros i j v Hj Hv. apply (F3 Hp0 i j v); [lia|]. apply SA; auto.
    + intros i v Hi' Hv. specialize (F6 Hp0 i ltac:(lia)). rewrite Eb in F6. exact (fin_get _ _ _ _ Hv F6).
Qed.

Lemma stop_answer pt o q : stopF FA B pt o = true -> Pt FA B q pt -> finite_answer u q.
Proof.
  intros Hst [Px Py Pz Ps]. destruct shape as [Bn [Bm [Bp [R1 [R2 [R3 [S1 [S2 S3]]]]]]]]. destruct (test_finite B pt R1 R2 R3 o Hst) as [F1 [F2 [F3 [F4 [F5 F6]]]]].
  assert (G : forall (a : arr b64) k f i, is_vec a k f -> 0 <= i < k -> is_finite (f i) = true -> is_finite (get B754_nan a i) = true).
  { intros a k f i [_ H] Hi Hf. unfold get. rewrite H by exact Hi. exact Hf. }
  change (@pn (car FA) B) with (@pn b64 B) in *. change (@pm (car FA) B) with (@pm b64 B) in *. change (@pp (car FA) B) with (@pp b64 B) in *.
  constructor.
  - intros i Hi. apply (G _ _ _ _ Ps); [lia|]. apply F5. lia.
  - intros i j v Hj [Hv|Hv]; (apply (G _ _ _ _ Px); [lia|]).
    + apply (F1 i j v ltac:(lia)); auto.
    + apply (F2 i j v ltac:(lia)); auto.
  - intros i j v Hj Hv. apply (G _ _ _ _ Pz); [apply (R2 j i v); [lia|auto]|]. apply (F2 i j v ltac:(lia)); auto.
  - intros ajc air apr bb i j v Ee Hj Hv. destruct (S3 _ _ _ _ Ee) as [Hup [Hp0 [SA Eb]]]. pose proof (SA i j v Hj Hv) as Hin.
    destruct (F3 Hp0 i j v ltac:(lia) Hin) as [_ [Gx Gy]]. split; [apply (G _ _ _ _ Px); [lia|exact Gx]|].
    apply (G _ _ _ _ Py); [apply (R3 j i v); [lia|exact Hin]|exact Gy].
Qed.
End User.

(** ** Runs that never pass the test *)
Section Never.
Variable B : prob b64.
Variable I : settings b64 -> Prop.
Hypothesis Hsig : forall o x, I o -> I (o <| sigma := x |>).
Hypothesis Hno : forall pt o, I o -> stopF FA B pt o = false.

Lemma run_never k : forall s, I (sn_o FA s) -> I (sn_o FA (fst (runF FA B k s))) /\ snd (runF FA B k s) = false /\
  Flag (sn_st FA (fst (runF FA B k s))) = Flag (sn_st FA s).
Proof.
  induction k; intros s Hi; cbn [runF]; [auto|]. destruct (IHk s Hi) as [H1 [-> H3]]. unfold iterF. rewrite Hno by exact H1.
  cbn [fst snd sn_o sn_st]. split; [apply Hsig; exact H1|]. split; [reflexivity|]. exact H3.
Qed.

Lemma solve_never s : I (sn_o FA s) -> Flag (sn_st FA s) <> 0 -> I (sn_o FA (solveF FA B s)) /\ Flag (sn_st FA (solveF FA B s)) <> 0.
Proof.
  intros Hi Hf. unfold solveF. rewrite finalF_o. destruct (run_never (Z.to_nat (maxit (sn_o FA s))) s Hi) as [H1 [_ H3]]. split; [exact H1|].
  unfold finalF. destruct (_ =? _); cbn [sn_st]; [discriminate|]. rewrite H3. exact Hf.
Qed.

Lemma calls_never l : forall s, (forall o, In (SetOptions FA o) l -> I o) -> I (sn_o FA s) -> Flag (sn_st FA s) <> 0 -> ~ In 0 (fst (callsF FA B s l)).
Proof.
  induction l as [|[o|] l IH]; intros s Ho Hi Hf; cbn [callsF fst]; [intros []| |].
  - apply IH; [intros o' H; apply Ho; right; exact H|apply Ho; left; reflexivity|exact Hf].
  - destruct (solve_never s Hi Hf) as [H1 H2]. intros [H|H]; [exact (H2 H)|]. revert H. apply IH; auto. intros o' H'. apply Ho. right. exact H'.
Qed.
End Never.

(** ** C79 *)

(** Options with which no point can pass: a tolerance that is not a positive number, or an abstol that is not a number. *)
Definition useless (o : settings b64) : Prop := flt FA (f0 FA) (reltol o) = false \/ is_nan (abstol o) = true.

(** Data that are not finite: no solve of any session returns 0. *)
Theorem C79_never_zero amd u l codes q : valid_user amd u -> quiet_calls FA u l -> ~ finite_data u ->
  session FA amd u l = Ok (codes, q) -> ~ In 0 codes.
Proof.
  intros V Hq ND E. destruct (session_from FA _ (Safe_total FA FA_total) amd u V) as [q0 [B [r [E0 [HS HF]]]]].
  destruct (HF _ Hq) as [q2 [E2 _]]. rewrite E in E2. injection E2 as -> _.
  apply (calls_never B (fun _ => True)); auto; [|discriminate]. intros pt o _. destruct (stopF FA B pt o) eqn:Hst; [|reflexivity].
  exfalso. exact (ND (stop_data amd u B q0 r V HS pt o Hst)).
Qed.
Print Assumptions C79_never_zero.

(** Useless options before every solve: the same. *)
Theorem C79_useless_options amd u o l codes q : valid_user amd u -> quiet_calls FA u (SetOptions FA o :: l) ->
  (forall o', In (SetOptions FA o') (SetOptions FA o :: l) -> useless o') ->
  session FA amd u (SetOptions FA o :: l) = Ok (codes, q) -> ~ In 0 codes.
Proof.
  intros V Hq Hu E. destruct (session_from FA _ (Safe_total FA FA_total) amd u V) as [q0 [B [r [E0 [HS HF]]]]].
  destruct (HF _ Hq) as [q2 [E2 _]]. rewrite E in E2. injection E2 as -> _. cbn [callsF].
  apply (calls_never B useless); auto; [|intros o' H; apply Hu; right; exact H|apply Hu; left; reflexivity|discriminate].
  intros pt o' Ho. destruct (stopF FA B pt o') eqn:Hst; [|reflexivity]. destruct (test_tolerances B pt o' Hst) as [T1 T2].
  destruct Ho as [Ho|Ho]; congruence.
Qed.
Print Assumptions C79_useless_options.

(** In both cases a first solve runs to the iteration limit and says so. *)
Theorem C79_limit amd u o : valid_user amd u -> quiet_calls FA u [SetOptions FA o; Solve FA] -> ~ finite_data u \/ useless o -> 0 <= maxit o ->
  exists q, session FA amd u [SetOptions FA o; Solve FA] = Ok ([2], q) /\ IterationCount (q_stats q) = maxit o.
Proof.
  intros V Hq HB Hm. destruct (session_from FA _ (Safe_total FA FA_total) amd u V) as [q0 [B [r [E0 [HS HF]]]]].
  destruct (HF _ Hq) as [q [E [HA _]]]. cbn [callsF fst snd] in E, HA. exists q. set (s := set_o FA (fresh FA B r) o) in *.
  assert (HN : forall pt, stopF FA B pt o = false).
  { intros pt. destruct (stopF FA B pt o) eqn:Hst; [|reflexivity]. exfalso.
    destruct HB as [HB|HB]; [exact (HB (stop_data amd u B q0 r V HS pt o Hst))|].
    destruct (test_tolerances B pt o Hst) as [T1 T2]. destruct HB; congruence. }
  destruct (solveF_fresh FA B s eq_refl) as [[_ [_ Es]]|[[j [Hj [St _]]]|[Hn _]]].
  - rewrite E. rewrite (at_st _ _ _ _ HA), Es. split; [reflexivity|]. cbn [sn_st]. 
    etransitivity; [exact (walk_iter FA B (Z.to_nat (maxit (sn_o FA s))) s)|]. change (sn_o FA s) with o. change (IterationCount (sn_st FA s)) with 0. lia.
  - exfalso. unfold stops in St. assert (stopF FA B (sn_pt FA (walk FA B j s)) o = true); [|rewrite HN in *; discriminate].
    unfold stopF in *. rewrite walk_reltol, walk_abstol in St. exact St.
  - change (sn_o FA s) with o in Hn. lia.
Qed.
Print Assumptions C79_limit.

(** A solve that returns 0, after any calls none of which left a 0, returns a finite answer. *)
Theorem C79_finite_answer amd u l codes q0 q : valid_user amd u -> new_zero amd u l codes q0 q -> finite_data u /\ finite_answer u q.
Proof.
  intros V [Hq E1 E2 Hn].
  destruct (C20_any_solve FA _ amd u l (Safe_total FA FA_total) V Hq) as [cs [qa [c [qb [E1' [E2' [Hf [_ H]]]]]]]].
  rewrite E1 in E1'. injection E1' as <- <-. rewrite E2 in E2'. injection E2' as Ec <-. apply app_inj_tail in Ec. destruct Ec as [_ <-].
  destruct H as [[H1 _]|[_ Hc]].
  - destruct (session_from FA _ (Safe_total FA FA_total) amd u V) as [qs [B [r [E0 [HS HF]]]]].
    destruct (HF _ Hq) as [q3 [E3 [HA Hi]]]. rewrite E2 in E3. injection E3 as _ <-.
    pose proof (test_at_ok FA _ (Safe_total FA FA_total) B q _ (q_options q0) HA Hi) as Hto.
    assert (Hst : stopF FA B (sn_pt FA (snd (callsF FA B (fresh FA B r) (l ++ [Solve FA])))) (q_options q0) = true).
    { eapply test_at_fun; [exact Hto|]. exact H1. }
    split; [exact (stop_data amd u B qs r V HS _ _ Hst)|exact (stop_answer amd u B qs r V HS _ _ q Hst (at_pt _ _ _ _ HA))].
  - exfalso. rewrite Hf in Hc. destruct (_ =? _) in Hc; [discriminate Hc|congruence].
Qed.
Print Assumptions C79_finite_answer.

(** The same for dense input: every number in the buffers counts. *)
Definition finite_dense (w : dense_user b64) (dP dA dG : Z -> Z -> b64) : Prop :=
  (forall i j, 0 <= i < d_n w -> 0 <= j < d_n w -> is_finite (dP i j) = true) /\
  (forall i j, 0 <= i < d_m w -> 0 <= j < d_n w -> is_finite (dG i j) = true) /\
  (forall j v, 0 <= j < d_n w -> rd (d_c w) j = Ok v -> is_finite v = true) /\
  (forall i v, 0 <= i < d_m w -> rd (d_h w) i = Ok v -> is_finite v = true) /\
  (forall a bb, d_eqs w = Some (a, bb) ->
    (forall i j, 0 <= i < d_p w -> 0 <= j < d_n w -> is_finite (dA i j) = true) /\
    (forall i v, 0 <= i < d_p w -> rd bb i = Ok v -> is_finite v = true)).

Theorem C79_dense amd w dP dA dG l codes q : valid_dense FA amd w dP dA dG -> (forall o, In (SetOptions FA o) l -> verbose o <= 0) ->
  ~ finite_dense w dP dA dG -> dense_session FA amd w l = Ok (codes, q) -> ~ In 0 codes.
Proof.
  intros VD Hl ND E. destruct (C34_dense_is_sparse FA amd w dP dA dG VD) as [u [SF [V ES]]]. rewrite ES in E.
  apply (C79_never_zero amd u l codes q V (or_intror Hl)); [|exact E]. intros [F1 [F2 [F3 [F4 F5]]]]. apply ND.
  destruct SF as [E1 E2 E3 E4 E5 E6 _ _ [_ CP] [_ CG] HA].
  assert (Z0 : forall x : b64, (feqb FA x (f0 FA) = false -> is_finite x = true) -> is_finite x = true).
  { intros x H. destruct x as [?|[]| |? ? ? ?]; try reflexivity; apply H; reflexivity. }
  change (car FA) with b64 in *. rewrite E1 in F1, F2, F3, F5. rewrite E2 in F4. rewrite E3 in F5. rewrite E4 in F3. rewrite E5 in F4. split; [|split; [|split; [|split]]].
  - intros i j Hi Hj. apply Z0. intros Hz. apply (F1 i j (dP i j) Hj). apply (cm_stored _ _ _ _ _ _ _ CP); auto.
  - intros i j Hi Hj. apply Z0. intros Hz. apply (F2 i j (dG i j) Hj). apply (cm_stored _ _ _ _ _ _ _ CG); auto.
  - exact F3.
  - exact F4.
  - intros a bb Ee. rewrite Ee in HA. destruct HA as [Hp [_ [ajc [air [apr [A1 [A2 [A3 CA]]]]]]]].
    assert (Eq : u_eqs u = Some (ajc, air, apr, bb)).
    { unfold u_eqs. unfold d_eqs in Ee. change (car FA) with b64 in *. rewrite A1, A2, A3, E3, E6. destruct (d_A w) as [a'|]; [|discriminate Ee].
      destruct (d_b w) as [b'|]; [|discriminate Ee]. destruct (d_p w =? 0); [discriminate Ee|]. injection Ee as _ ->. reflexivity. }
    destruct (F5 _ _ _ _ Eq) as [F6 F7]. split; [|exact F7].
    intros i j Hi Hj. apply Z0. intros Hz. apply (F6 i j (dA i j) Hj). apply (cm_stored _ _ _ _ _ _ _ CA); auto.
Qed.
Print Assumptions C79_dense.

(** ** Case: minimise x^2/2 + c x subject to x >= 1 with c not a number, or with c infinite. *)
Definition small_c (c : b64) : user (car FA) := (small FA) <| u_c := [Some c] |>.

Lemma C79_case amd c : is_finite c = false -> valid_user amd (small_c c) /\ ~ finite_data (small_c c) /\
  (forall o, verbose o <= 0 -> quiet_calls FA (small_c c) [SetOptions FA o; Solve FA]) /\
  useless ((default_settings FA) <| reltol := f0 FA |>) /\ useless ((default_settings FA) <| abstol := B754_nan |>).
Proof.
  intros Hc. split; [|split; [|split; [|split]]].
  - destruct (small_valid FA amd) as [V1 V2 V3 V4 V5 V6 V7 V8 V9]. constructor; try assumption.
    change (u_c (small_c c)) with [Some c]. change (u_n (small_c c)) with 1.
    intros i Hi. assert (i = 0) as -> by lia. exists c. reflexivity.
  - intros [_ [_ [H _]]]. rewrite (H 0 c) in Hc; [discriminate|change (u_n (small_c c)) with 1; lia|reflexivity].
  - intros o Ho. right. intros o' [H|[H|[]]]; [injection H as <-; exact Ho|discriminate].
  - left. reflexivity.
  - right. reflexivity.
Qed.

(** Case for [C79_finite_answer]: the session of [C62_case], whose second solve returns 0. *)
Lemma C79_case_answer : exists q0 q, valid_user noamd odd /\ new_zero noamd odd calls62 [2] q0 q /\ finite_answer odd q.
Proof.
  destruct C62_case as [q0 [q [V [HZ _]]]]. exists q0, q. split; [exact V|]. split; [exact HZ|]. exact (proj2 (C79_finite_answer _ _ _ _ _ _ V HZ)).
Qed.

(** Case for [C79_dense]: minimise P x^2/2 subject to x >= 1 with P not a number. *)
Definition dense_nan : dense_user (car FA) :=
  mkDense 1 1 0 [Some B754_nan] None (fs FA [-1]) (fs FA [0]) (fs FA [-1]) None (Some (zs [0; 1])) 20.
Lemma C79_case_dense amd : valid_dense FA amd dense_nan (fun _ _ => B754_nan) (fun _ _ => f0 FA) (fun _ _ => fofZ FA (-1)) /\
  ~ finite_dense dense_nan (fun _ _ => B754_nan) (fun _ _ => f0 FA) (fun _ _ => fofZ FA (-1)).
Proof.
  split.
  - split.
    + cbn; lia.
    + cbn; lia.
    + intros i j Hi Hj. change (d_n dense_nan) with 1 in *. enum i; enum j; reflexivity.
    + intros i j Hi Hj. change (d_n dense_nan) with 1 in *. change (d_m dense_nan) with 1 in *. enum i; enum j; reflexivity.
    + intros a bb E. discriminate E.
    + intros i Hi. change (d_n dense_nan) with 1 in *. enum i; eexists; reflexivity.
    + intros i Hi. change (d_m dense_nan) with 1 in *. enum i; eexists; reflexivity.
    + exists 0, 0. split; [cbn; lia|]. left. split; [cbn; lia|]. reflexivity.
    + change (permutation_array (zs [0; 1]) 2). perm_concrete.
  - intros [H _]. specialize (H 0 0 ltac:(cbn; lia) ltac:(cbn; lia)). discriminate H.
Qed.
