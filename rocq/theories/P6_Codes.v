(** Interior points (C11, C12), meaning of the exit code (C14, C18, C19, C20) and of the reported
    statistics (C17). *)
From Coq Require Import ZArith Reals List Lia Lra Bool.
From RecordUpdate Require Import RecordUpdate.
From Flocq Require Import IEEE754.BinarySingleNaN.
From Verif Require Import Res Partial Arith Lists MSparse Csc SemVec Flat TransposeProofs KktProofs MLdl LdlSym LdlNum LdlR
  LdlFun MSolver VecOps Iter SafeInst Setup Session Spec SpecLink QpSpec NewtonR Api Demo P4_Always PointR P5_Session.
Import ListNotations.
Open Scope Z_scope.
Open Scope res_scope.

(** ** Option changes before the first solve *)

Lemma last_cons_default {T} (l : list T) : forall a d, last (a :: l) d = last l a.
Proof. induction l as [|b l IH]; intros a d; auto. change (last (a :: b :: l) d) with (last (b :: l) d). rewrite (IH b d), (IH b a). reflexivity. Qed.

(** A first solve, with or without option changes before it, is a first solve with the last options given,
    the defaults if none were. *)
Theorem first_solve_options (A : Arith) ps amd u os : Safe A ps -> valid_user amd u ->
  session A amd u (map (SetOptions A) os ++ [Solve A]) =
  session A amd u [SetOptions A (last os (default_settings A)); Solve A].
Proof.
  intros SF V. destruct (session_from A ps SF amd u V) as [q0 [B [r [E [HS _]]]]].
  unfold session. rewrite E. cbn [bind].
  assert (H : forall os q d, q_options q = d -> run_calls A q (map (SetOptions A) os ++ [Solve A]) =
     run_calls A q [SetOptions A (last os d); Solve A]).
  { clear. induction os as [|o os IH]; intros q d Hd.
    - cbn [map app last run_calls]. replace (q <| q_options := d |>) with q; [reflexivity|]. subst d. destruct q. reflexivity.
    - cbn [map app run_calls]. rewrite (IH (q <| q_options := o |>) o) by (destruct q; reflexivity). cbn [run_calls].
      rewrite last_cons_default. destruct q. reflexivity. }
  apply H. destruct (sd_at _ _ _ _ _ HS) as [_ _ Ho _]. exact Ho.
Qed.
Print Assumptions first_solve_options.

(** ** Interior points *)

(** C11: in exact arithmetic the point left by setup has positive slacks and multipliers. *)
Theorem C11_start_interior amd u : valid_user amd u -> exists q, setup RA amd u = Ok q /\
  forall i, 0 <= i < u_m u -> (0 < hs q i)%R /\ (0 < hz q i)%R.
Proof.
  intros V. destruct (session_from RA Rpos Safe_R amd u V) as [q0 [B [r [E [HS _]]]]]. exists q0. split; auto.
  destruct (Pt_is _ _ _ (at_pt _ _ _ _ (sd_at _ _ _ _ _ HS))) as [_ _ Hz Hs].
  destruct (initF_interior RA Rpos B Safe_R) as [Is Iz].
  destruct (sd_n _ _ _ _ _ HS) as [_ [Em _]]. intros i Hi. cbn [car RA] in *. rewrite <- Em in Hi.
  rewrite Hz, Hs by auto. split; [apply (Is i Hi)|apply (Iz i Hi)].
Qed.
Print Assumptions C11_start_interior.

(** C12: and so has the point after any calls whatsoever, whatever the exit codes. *)
Theorem C12_always_interior amd u l : valid_user amd u -> quiet_calls RA u l ->
  exists codes q, session RA amd u l = Ok (codes, q) /\
  forall i, 0 <= i < u_m u -> (0 < hs q i)%R /\ (0 < hz q i)%R.
Proof.
  intros V Hq. destruct (session_from RA Rpos Safe_R amd u V) as [q0 [B [r [E [HS HF]]]]].
  destruct (HF l Hq) as [q [E2 [HA [Is Iz]]]]. do 2 eexists. split; [exact E2|].
  destruct (Pt_is _ _ _ (at_pt _ _ _ _ HA)) as [_ _ Hz Hs].
  destruct (sd_n _ _ _ _ _ HS) as [_ [Em _]]. intros i Hi. cbn [car RA] in *. rewrite <- Em in Hi.
  rewrite Hz, Hs by auto. split; [apply (Is i Hi)|apply (Iz i Hi)].
Qed.
Print Assumptions C12_always_interior.

Example C11_C12_case amd : valid_user amd (demo RA) /\ quiet_calls RA (demo RA) [Solve RA; Solve RA].
Proof. split; [apply demo_valid|]. left. discriminate. Qed.

(** Minimise x^2/2 subject to x >= 1e20. *)
Definition far (A : Arith) : user (car A) :=
  mkUser 1 1 0
    (zs [0; 1]) (zs [0]) (fs A [1])
    None None None
    (zs [0; 1]) (zs [0]) (fs A [-1])
    (fs A [0]) (fs A [-100000000000000000000]) None (f0 A)
    (Some (zs [1; 0])).

Lemma far_valid A amd : valid_user amd (far A).
Proof.
  constructor; cbn [far u_n u_m u_p u_Pjc u_Pir u_Ppr u_Gjc u_Gir u_Gpr u_c u_h u_perm].
  - lia.
  - lia.
  - csc_concrete.
  - csc_concrete.
  - intros ajc air apr bb E. discriminate E.
  - intros i Hi. enum i; eexists; reflexivity.
  - intros i Hi. enum i; eexists; reflexivity.
  - exists 0, 0, (fofZ A 1). split; [lia|]. left. exists 0, 1, 0. cbn. repeat split; auto; lia.
  - change (u_N (far A)) with 2. perm_concrete.
Qed.

Definition noamd : amd_t := fun _ _ _ _ => Ub NullPtr.

(** C11 fails in IEEE doubles: a starting slack is exactly zero. *)
Theorem C11_binary64_refuted : exists u : user (car FA), valid_user noamd u /\ exists q s,
  setup FA noamd u = Ok q /\ 0 < u_m u /\ rd (q_s q) 0 = Ok s /\ feqb FA s (f0 FA) = true.
Proof.
  exists (far FA). split; [apply far_valid|].
  assert (C : match setup FA noamd (far FA) with
              | Ok q => match rd (q_s q) 0 with Ok s => feqb FA s (f0 FA) | _ => false end | _ => false end = true)
    by (vm_compute; reflexivity).
  destruct (setup FA noamd (far FA)) as [q| |]; try discriminate C.
  destruct (rd (q_s q) 0) as [s| |] eqn:E; try discriminate C.
  exists q, s. split; auto. split; [reflexivity|]. auto.
Qed.
Print Assumptions C11_binary64_refuted.

(** ** Exit codes of the first solve *)

(** The point after exactly [j] steps, as a caller can obtain it: solve a fresh handle with limit [j] and
    an absolute tolerance [nv] that nothing meets. *)
Definition iterate (A : Arith) amd u (o : settings (car A)) (nv : car A) (j : Z) (q : qp (car A)) : Prop :=
  session A amd u [SetOptions A (o <| maxit := j |> <| abstol := nv |>); Solve A] = Ok ([2], q).

Definition same_point {F} (q q' : qp F) : Prop := q_x q = q_x q' /\ q_y q = q_y q' /\ q_z q = q_z q' /\ q_s q = q_s q'.

(** Exit code of a first solve with options [o] when [it j] relates to the handles holding iterate [j] and [T]
    is the stopping test. *)
Definition code_meaning {F} (o : settings F) (it : Z -> qp F -> Prop) (T : qp F -> Prop) (code : Z) : Prop :=
  (code = 0 \/ code = 2 \/ code = 3) /\
  (code = 0 <-> exists j qj, 0 <= j < maxit o /\ it j qj /\ T qj) /\
  (code = 2 <-> 0 <= maxit o /\ forall j qj, 0 <= j < maxit o -> it j qj -> ~ T qj) /\
  (code = 3 <-> maxit o < 0).

(** Number of steps: at most the limit; the returned point is the iterate with the reported number, the first
    one that passes the test if one does before the limit. *)
Definition count_meaning {F} (o : settings F) (it : Z -> qp F -> Prop) (T : qp F -> Prop) (code : Z) (q : qp F) : Prop :=
  0 <= IterationCount (q_stats q) <= Z.max 0 (maxit o) /\
  (code = 0 -> IterationCount (q_stats q) < maxit o) /\ (code = 2 -> IterationCount (q_stats q) = maxit o) /\
  (exists qj, it (IterationCount (q_stats q)) qj /\ same_point q qj) /\
  (forall j qj, 0 <= j < IterationCount (q_stats q) -> it j qj -> ~ T qj).

Lemma first_solve_core A ps amd u o nv q0 B r T : Safe A ps -> Started A u B q0 r ->
  (forall l, quiet_calls A u l -> exists q, session A amd u l = Ok (fst (callsF A B (fresh A B r) l), q) /\
    At A B q (snd (callsF A B (fresh A B r) l)) /\ interior A B ps (sn_pt A (snd (callsF A B (fresh A B r) l)))) ->
  quiet_calls A u [SetOptions A o; Solve A] ->
  (forall pt, interior A B ps pt -> flt A (nmuF A B pt) nv = false) ->
  (forall q s, At A B q s -> interior A B ps (sn_pt A s) -> (T q <-> stopF A B (sn_pt A s) o = true)) ->
  (forall j, 0 <= j -> exists q, iterate A amd u o nv j q) /\
  exists code q, session A amd u [SetOptions A o; Solve A] = Ok ([code], q) /\
    code_meaning o (iterate A amd u o nv) T code /\ count_meaning o (iterate A amd u o nv) T code q.
Proof.
  intros SF HS Hses Hq Hnv HT. split.
  - intros j Hj. eapply (it_exists A ps SF amd u o nv); eauto.
  - destruct (codes_core A ps SF amd u o nv B r Hses Hq Hnv T HT) as [code [q [E [H1 [H2 [H3 [H4 [H5 [H6 [H7 [H8 H9]]]]]]]]]]].
    exists code, q. split; auto. split; [split; [exact H1|split; [exact H2|split; [exact H3|exact H4]]]|].
    assert (H0 : 0 <= IterationCount (q_stats q)).
    { destruct H8 as [qj [Hj _]]. unshelve eapply (it_at A ps SF amd u o nv B r Hses Hq Hnv) in Hj. apply Hj. }
    split; [auto|]. split; [exact H6|]. split; [exact H7|]. split; [exact H8|exact H9].
Qed.

(** C18, C19: any arithmetic. *)
Theorem C18_C19_first_solve (A : Arith) ps amd u o nv : Safe A ps -> valid_user amd u ->
  quiet_calls A u [SetOptions A o; Solve A] -> (forall x, flt A x nv = false) ->
  (forall j, 0 <= j -> exists q, iterate A amd u o nv j q) /\
  exists code q, session A amd u [SetOptions A o; Solve A] = Ok ([code], q) /\
    code_meaning o (iterate A amd u o nv) (fun q => test_at A o q true) code /\
    count_meaning o (iterate A amd u o nv) (fun q => test_at A o q true) code q.
Proof.
  intros SF V Hq Hnv. destruct (session_from A ps SF amd u V) as [q0 [B [r [E [HS HF]]]]].
  apply (first_solve_core A ps amd u o nv q0 B r); auto.
  intros q s HA Hi. apply (test_at_iff A ps SF B q s o HA Hi).
Qed.
Print Assumptions C18_C19_first_solve.

(** IEEE doubles, every value of the tolerances, NaN and infinities included: the tolerance nothing meets is NaN. *)
Theorem C18_C19_first_solve_binary64 amd u o : valid_user amd u -> quiet_calls FA u [SetOptions FA o; Solve FA] ->
  (forall j, 0 <= j -> exists q, iterate FA amd u o B754_nan j q) /\
  exists code q, session FA amd u [SetOptions FA o; Solve FA] = Ok ([code], q) /\
    code_meaning o (iterate FA amd u o B754_nan) (fun q => test_at FA o q true) code /\
    count_meaning o (iterate FA amd u o B754_nan) (fun q => test_at FA o q true) code q.
Proof.
  intros V Hq. eapply C18_C19_first_solve; eauto using Safe_total, FA_total.
  intros x. destruct x as [[]|[]| |[] ? ? ?]; reflexivity.
Qed.
Print Assumptions C18_C19_first_solve_binary64.

(** The point in a handle passes the stopping test of options [o] for the problem the user stated. *)
Definition passes_here (u : user R) (o : settings R) (q : qp R) : Prop :=
  passes (user_qp u) (reltol o) (abstol o) (hx q) (hy q) (hz q) (hs q).

(** Exact arithmetic: the test is that of the mathematical problem; the tolerance nothing meets is 0. *)
Theorem C18_C19_first_solve_exact amd u o : valid_user amd u -> quiet_calls RA u [SetOptions RA o; Solve RA] ->
  (forall j, 0 <= j -> exists q, iterate RA amd u o 0%R j q) /\
  exists code q, session RA amd u [SetOptions RA o; Solve RA] = Ok ([code], q) /\
    code_meaning o (iterate RA amd u o 0%R) (passes_here u o) code /\
    count_meaning o (iterate RA amd u o 0%R) (passes_here u o) code q.
Proof.
  intros V Hq. destruct (session_from RA Rpos Safe_R amd u V) as [q0 [B [r [E [HS HF]]]]].
  apply (first_solve_core RA Rpos amd u o 0%R q0 B r); auto.
  - apply Safe_R.
  - intros pt Hi. apply Rltb_false. apply Rlt_le. apply nmu_pos; auto. eapply started_dims; eauto.
  - intros q s HA Hi. apply (passes_handle amd u B q0 r V HS). apply Pt_is. apply HA.
Qed.
Print Assumptions C18_C19_first_solve_exact.

Example C18_C19_case amd (o : settings (car FA)) (o' : settings R) :
  valid_user amd (demo FA) /\ quiet_calls FA (demo FA) [SetOptions FA o; Solve FA] /\
  valid_user amd (demo RA) /\ quiet_calls RA (demo RA) [SetOptions RA o'; Solve RA].
Proof. split; [apply demo_valid|]. split; [left; discriminate|]. split; [apply demo_valid|]. left. discriminate. Qed.

(** ** Any solve of any session *)

(** What a solve of a session does, whatever came before: [q] is the handle before it, [q'] after it.
    Either the point returned passes the stopping test, the statistics are those of that point, and the code is 0
    unless the running count happens to equal the limit; or no test was passed, all [maxit] steps were made, and the
    code is 2 if the running count equals the limit and otherwise whatever the previous call left. *)
Definition solve_outcome (A : Arith) (q : qp (car A)) (c : Z) (q' : qp (car A)) : Prop :=
  let o := q_options q in let k := IterationCount (q_stats q) in let k' := IterationCount (q_stats q') in
  (test_at A o q' true /\ reports A (q_stats q') q' /\ k <= k' < k + maxit o /\ c = (if k' =? maxit o then 2 else 0)) \/
  (k' = k + Z.max 0 (maxit o) /\ c = (if k' =? maxit o then 2 else Flag (q_stats q))).

Lemma solveF_any A B s : let s' := solveF A B s in let k := IterationCount (sn_st A s) in let k' := IterationCount (sn_st A s') in
  let fl := Flag (sn_st A s') in
  (exists i, stops A B (walk A B i s) = true /\ (forall j, (j < i)%nat -> stops A B (walk A B j s) = false) /\
     s' = finalF A (stop_snap A B (walk A B i s)) /\
     k' = k + Z.of_nat i /\ Z.of_nat i < maxit (sn_o A s) /\ fl = (if k' =? maxit (sn_o A s) then 2 else 0)) \/
  ((forall j, Z.of_nat j < maxit (sn_o A s) -> stops A B (walk A B j s) = false) /\
   s' = finalF A (walk A B (Z.to_nat (maxit (sn_o A s))) s) /\
   k' = k + Z.max 0 (maxit (sn_o A s)) /\ fl = (if k' =? maxit (sn_o A s) then 2 else Flag (sn_st A s))).
Proof.
  cbv zeta. unfold solveF. destruct (runF_cases A B (Z.to_nat (maxit (sn_o A s))) s) as [[E H]|[i [Hi [H1 [H2 E]]]]]; rewrite E; cbn [fst].
  - right. split; [intros j Hj; apply H; lia|]. split; auto. unfold finalF. rewrite walk_iter, walk_maxit.
    destruct (Z.eqb_spec (IterationCount (sn_st A s) + Z.of_nat (Z.to_nat (maxit (sn_o A s)))) (maxit (sn_o A s))) as [He|He];
      cbn [sn_st]; cbn; rewrite walk_iter.
    + split; [lia|]. rewrite (proj2 (Z.eqb_eq _ _) He). reflexivity.
    + split; [lia|]. rewrite (proj2 (Z.eqb_neq _ _) He). apply walk_flag.
  - left. exists i. split; auto. split; auto. split; auto. unfold finalF. cbn [stop_snap sn_st sn_o]. cbn. rewrite walk_iter, walk_maxit.
    destruct (Z.eqb_spec (IterationCount (sn_st A s) + Z.of_nat i) (maxit (sn_o A s))) as [He|He]; cbn; rewrite walk_iter.
    + split; [lia|]. split; [lia|]. rewrite (proj2 (Z.eqb_eq _ _) He). reflexivity.
    + split; [lia|]. split; [lia|]. rewrite (proj2 (Z.eqb_neq _ _) He). reflexivity.
Qed.

Lemma callsF_app A B l1 : forall s l2, callsF A B s (l1 ++ l2) =
  (fst (callsF A B s l1) ++ fst (callsF A B (snd (callsF A B s l1)) l2), snd (callsF A B (snd (callsF A B s l1)) l2)).
Proof.
  induction l1 as [|[o|] l1 IH]; intros s l2; cbn [app callsF fst snd].
  - destruct (callsF A B s l2); reflexivity.
  - apply IH.
  - rewrite IH. reflexivity.
Qed.

Lemma callsF_flag A B l : forall s, Flag (sn_st A (snd (callsF A B s l))) = last (fst (callsF A B s l)) (Flag (sn_st A s)).
Proof.
  induction l as [|[o|] l IH]; intros s; cbn [callsF fst snd]; auto.
  - rewrite IH. reflexivity.
  - rewrite IH, last_cons_default. reflexivity.
Qed.

Lemma finalF_cases A s : (sn_st A (finalF A s) = sn_st A s \/ sn_st A (finalF A s) = (sn_st A s) <| Flag := QP_MAXIT |>) /\
  sn_pt A (finalF A s) = sn_pt A s.
Proof. unfold finalF. destruct (_ =? _); auto. Qed.

Lemma stop_reports A ps B q s : Safe A ps -> At A B q s -> interior A B ps (sn_pt A s) ->
  (exists s1, sn_pt A s = sn_pt A s1 /\ (sn_st A s = sn_st A (stop_snap A B s1) \/
      sn_st A s = (sn_st A (stop_snap A B s1)) <| Flag := QP_MAXIT |>)) -> reports A (q_stats q) q.
Proof.
  intros SF HA Hi [s1 [Ep Es]]. rewrite (at_st _ _ _ _ HA).
  destruct Es as [-> | ->]; eapply (reports_ok A ps SF B q s _ (sn_st A s1) HA Hi); rewrite Ep; reflexivity.
Qed.

(** C20, the true version: any solve of any session. *)
Theorem C20_any_solve (A : Arith) ps amd u l : Safe A ps -> valid_user amd u -> quiet_calls A u (l ++ [Solve A]) ->
  exists codes q c q', session A amd u l = Ok (codes, q) /\ session A amd u (l ++ [Solve A]) = Ok (codes ++ [c], q') /\
    Flag (q_stats q) = last codes 3 /\ Flag (q_stats q') = c /\ solve_outcome A q c q'.
Proof.
  intros SF V Hq. destruct (session_from A ps SF amd u V) as [q0 [B [r [E [HS HF]]]]].
  destruct (HF (l ++ [Solve A]) Hq) as [q' [E2 [HA2 Hi2]]].
  assert (Hq1 : quiet_calls A u l).
  { destruct Hq as [H|H]; [left; auto|right]. intros o Ho. apply H. apply in_or_app. auto. }
  destruct (HF l Hq1) as [q [E1 [HA1 Hi1]]].
  rewrite callsF_app in E2, HA2, Hi2. cbn [fst snd callsF] in E2, HA2, Hi2.
  set (s := snd (callsF A B (fresh A B r) l)) in *.
  exists (fst (callsF A B (fresh A B r) l)), q, (Flag (sn_st A (solveF A B s))), q'.
  split; [exact E1|]. split; [exact E2|]. split; [rewrite (at_st _ _ _ _ HA1); apply callsF_flag|].
  split; [rewrite (at_st _ _ _ _ HA2); reflexivity|].
  unfold solve_outcome. rewrite (at_st _ _ _ _ HA1), (at_o _ _ _ _ HA1), (at_st _ _ _ _ HA2).
  destruct (solveF_any A B s) as [[i [Hs [_ [Es [Hk [Hl Hf]]]]]]|[_ [_ [Hk Hf]]]]; [left|right; split; [exact Hk|exact Hf]].
  destruct (finalF_cases A (stop_snap A B (walk A B i s))) as [Ef Ep0].
  assert (Ep : sn_pt A (solveF A B s) = sn_pt A (walk A B i s)) by (rewrite Es; exact Ep0).
  split; [|split; [|split; [lia|exact Hf]]].
  - apply (test_at_iff A ps SF B q' _ (sn_o A s) HA2 Hi2). rewrite Ep. unfold stops, stopF in *.
    rewrite walk_abstol, walk_reltol in Hs. exact Hs.
  - rewrite <- (at_st _ _ _ _ HA2). eapply (stop_reports A ps); eauto. exists (walk A B i s). split; auto.
    rewrite Es. exact Ef.
Qed.
Print Assumptions C20_any_solve.

(** ** Exit code 0 of the first solve *)

Lemma first_solve_quiet A u o : quiet_calls A u [SetOptions A o; Solve A] -> quiet_calls A u ([SetOptions A o] ++ [Solve A]).
Proof. auto. Qed.

(** C14, C17: any arithmetic.  Code 0: the returned point passes the test, recomputed from scratch, and the
    reported objective value and norms are those of the returned point. *)
Theorem C14_C17_optimal (A : Arith) ps amd u o q : Safe A ps -> valid_user amd u ->
  quiet_calls A u [SetOptions A o; Solve A] -> session A amd u [SetOptions A o; Solve A] = Ok ([0], q) ->
  test_at A o q true /\ reports A (q_stats q) q.
Proof.
  intros SF V Hq E. destruct (C20_any_solve A ps amd u [SetOptions A o] SF V Hq) as [codes [q1 [c [q' [E1 [E2 [Hf [_ H]]]]]]]].
  cbn [app] in E2. rewrite E in E2. injection E2 as Ec <-.
  unfold session in E1. destruct (setup A amd u) as [q2| |]; try discriminate E1. cbn [bind run_calls] in E1.
  injection E1 as <- <-. cbn [app] in Ec. injection Ec as <-. cbn [last] in Hf.
  destruct H as [[H1 [H2 _]]|[_ Hc]]; [split; assumption|].
  rewrite Hf in Hc. destruct (_ =? _) in Hc; discriminate Hc.
Qed.
Print Assumptions C14_C17_optimal.

(** C14 in exact arithmetic, in terms of the user's problem. *)
Theorem C14_optimal_exact amd u o q : valid_user amd u -> quiet_calls RA u [SetOptions RA o; Solve RA] ->
  session RA amd u [SetOptions RA o; Solve RA] = Ok ([0], q) -> passes_here u o q.
Proof.
  intros V Hq E. destruct (C18_C19_first_solve_exact amd u o V Hq) as [_ [code [q' [E' [_ HC]]]]].
  destruct (session_from RA Rpos Safe_R amd u V) as [q0 [B [r [E0 [HS HF]]]]].
  destruct (HF _ Hq) as [q2 [E2 [HA Hi]]]. rewrite E in E2. injection E2 as _ <-.
  destruct (C14_C17_optimal RA Rpos amd u o q Safe_R V Hq E) as [Ht _].
  apply (passes_handle amd u B q0 r V HS q _ o (Pt_is _ _ _ (at_pt _ _ _ _ HA))).
  apply (test_at_iff RA Rpos Safe_R B q _ o HA Hi). exact Ht.
Qed.
Print Assumptions C14_optimal_exact.

(** C14 in IEEE doubles: a reported optimum has no NaN residual and no NaN complementarity. *)
Theorem C14_no_nan amd u o q : valid_user amd u -> quiet_calls FA u [SetOptions FA o; Solve FA] ->
  session FA amd u [SetOptions FA o; Solve FA] = Ok ([0], q) ->
  exists a b c, n_rx (q_stats q) = Some a /\ n_rz (q_stats q) = Some b /\ n_mu (q_stats q) = Some c /\
    is_nan a = false /\ is_nan b = false /\ is_nan c = false /\
    (u_pe u <> 0 -> exists d, n_ry (q_stats q) = Some d /\ is_nan d = false).
Proof.
  intros V Hq E. destruct (session_from FA _ (Safe_total FA FA_total) amd u V) as [q0 [B [r [E0 [HS HF]]]]].
  destruct (HF _ Hq) as [q2 [E2 [HA Hi]]]. rewrite E in E2. injection E2 as _ <-.
  destruct (C14_C17_optimal FA _ amd u o q (Safe_total FA FA_total) V Hq E) as [[qa [Ea Ht]] [qb [fv [temp [Eb [_ [H1 [H2 [H3 [H4 _]]]]]]]]]].
  rewrite Ea in Eb. injection Eb as <-.
  destruct (proj1 (wp_exists _ _) (computeresiduals_ok FA B _ q _ (Safe_total FA FA_total) (at_base _ _ _ _ HA) (at_pt _ _ _ _ HA)))
    as [qc [Ec [rx [ry [rz [Eq1 _]]]]]]. rewrite Ea in Ec. injection Ec as <-.
  pose proof (test_at_ok FA _ (Safe_total FA FA_total) B q _ o HA Hi) as Hto.
  assert (Hst : stopF FA B (sn_pt FA (snd (callsF FA B (fresh FA B r) [SetOptions FA o; Solve FA]))) o = true).
  { eapply test_at_fun; [exact Hto|]. exists qa. split; auto. }
  set (pt := sn_pt FA (snd (callsF FA B (fresh FA B r) [SetOptions FA o; Solve FA]))) in *. clearbody pt.
  assert (Hnan : forall x y, flt FA x y = true -> is_nan x = false).
  { intros x y Hxy. destruct x; auto. }
  unfold stopF in Hst. apply andb_true_iff in Hst. destruct Hst as [Hst Hc]. apply andb_true_iff in Hst. destruct Hst as [Hst Hd].
  apply andb_true_iff in Hst. destruct Hst as [Hx Hz].
  exists (nrm FA (rxF FA B pt) (pn B)), (nrm FA (rzF FA B pt) (pm B)), (nmuF FA B pt).
  rewrite H1, H2, H3, Eq1. split; [reflexivity|]. split; [reflexivity|]. split; [reflexivity|].
  split; [eapply Hnan; eauto|]. split; [eapply Hnan; eauto|]. split; [eapply Hnan; eauto|].
  intros Hp. destruct (sd_n _ _ _ _ _ HS) as [_ [_ [Epe _]]]. rewrite <- Epe in Hp.
  exists (nrm FA (ryF FA B pt) (pp B)). rewrite H4 by (rewrite (b_p _ _ _ (at_base _ _ _ _ HA)); exact Hp). rewrite Eq1.
  destruct (Z.eqb_spec (pp B) 0) as [Ez|Ez]; [contradiction|].
  split; [|eapply Hnan; eauto]. transitivity (n_ry (resid_stats FA B pt (q_stats q))); [reflexivity|].
  unfold resid_stats. cbn [n_ry]. rewrite (proj2 (Z.eqb_neq _ _) Ez). reflexivity.
Qed.
Print Assumptions C14_no_nan.

(** C17 in exact arithmetic, in terms of the user's problem. *)
Theorem C17_optimal_exact amd u o q : valid_user amd u -> quiet_calls RA u [SetOptions RA o; Solve RA] ->
  session RA amd u [SetOptions RA o; Solve RA] = Ok ([0], q) ->
  let Q := user_qp u in
  fval (q_stats q) = Some (objective Q (hx q)) /\
  n_rx (q_stats q) = Some (Euclid (res_dual Q (hx q) (hy q) (hz q)) (u_n u)) /\
  n_rz (q_stats q) = Some (Euclid (res_in Q (hx q) (hs q)) (u_m u)) /\
  n_mu (q_stats q) = Some (gap Q (hs q) (hz q)) /\
  (u_pe u <> 0 -> n_ry (q_stats q) = Some (Euclid (res_eq Q (hx q)) (u_pe u))).
Proof.
  intros V Hq E Q. destruct (session_from RA Rpos Safe_R amd u V) as [q0 [B [r [E0 [HS HF]]]]].
  destruct (HF _ Hq) as [q2 [E2 [HA Hi]]]. rewrite E in E2. injection E2 as _ <-.
  destruct (C14_C17_optimal RA Rpos amd u o q Safe_R V Hq E) as [_ [qb [fv [temp [Eb [Ev [H1 [H2 [H3 [H4 H5]]]]]]]]]].
  set (s := snd (callsF RA B (fresh RA B r) [SetOptions RA o; Solve RA])) in *.
  pose proof (Pt_is _ _ _ (at_pt _ _ _ _ HA)) as HP.
  assert (HR : reports RA ((resid_stats RA B (sn_pt RA s) (q_stats q))) q)
    by (eapply (reports_ok RA Rpos Safe_R B q s _ (q_stats q) HA Hi); reflexivity).
  destruct HR as [qc [fv' [temp' [Ec [Ev' [K1 [K2 [K3 [K4 K5]]]]]]]]]. rewrite Eb in Ec. injection Ec as <-.
  rewrite Ev in Ev'. injection Ev' as <- <-. rewrite H1, H2, H3, H5, <- K1, <- K2, <- K3, <- K5.
  destruct (dims_user u B q0 r HS) as [D1 [D2 D3]]. destruct (sd_n _ _ _ _ _ HS) as [En [Em [Ep _]]]. cbn [car RA] in *.
  cbn [resid_stats n_rx n_rz n_mu fval]. split; [f_equal; apply (fval_handle u B q0 r HS q _ HP)|].
  split; [f_equal; etransitivity; [apply (nrx_handle amd u B q0 r V HS q _ HP)|]; rewrite D1, En; reflexivity|].
  split; [f_equal; etransitivity; [apply (nrz_handle u B q0 r HS q _ HP)|]; rewrite D2, Em; reflexivity|].
  split; [f_equal; apply (nmu_handle amd u B q0 r V HS q _ HP)|].
  intros Hp. assert (Hp' : q_p q <> 0).
  { intros C. apply Hp. rewrite <- Ep, <- C. symmetry. apply (b_p _ _ _ (at_base _ _ _ _ HA)). }
  rewrite H4, <- K4 by exact Hp'.
  rewrite <- Ep in Hp. unfold resid_stats. cbn [n_ry].
  assert (Eb0 : (@pp (car RA) B =? 0) = false) by (apply Z.eqb_neq; exact Hp). rewrite Eb0. f_equal.
  etransitivity; [apply (nry_handle u B q0 r HS q _ HP)|]. rewrite D3, Ep. reflexivity.
Qed.
Print Assumptions C17_optimal_exact.

(** C17, limit reached: the statistics reported are those of the iterate before the last step. *)
Theorem C17_limit_previous (A : Arith) ps amd u o nv q : Safe A ps -> valid_user amd u ->
  quiet_calls A u [SetOptions A o; Solve A] -> (forall x, flt A x nv = false) -> 0 < maxit o ->
  session A amd u [SetOptions A o; Solve A] = Ok ([2], q) ->
  exists qj, iterate A amd u o nv (maxit o - 1) qj /\ reports A (q_stats q) qj.
Proof.
  intros SF V Hq Hnv Hm E. destruct (session_from A ps SF amd u V) as [q0 [B [r [E0 [HS HF]]]]].
  destruct (HF _ Hq) as [q2 [E2 [HA Hi]]]. rewrite E in E2. injection E2 as Ec <-.
  destruct (it_exists A ps SF amd u o nv B r HF Hq (fun pt _ => Hnv _) (maxit o - 1) ltac:(lia)) as [qj Ej].
  exists qj. split; [exact Ej|].
  destruct (it_at A ps SF amd u o nv B r HF Hq (fun pt _ => Hnv _) _ _ Ej) as [_ [_ [Hji [sj [HAj Esj]]]]].
  rewrite (at_st _ _ _ _ HA). cbn [callsF snd fst] in *.
  destruct (solveF_fresh A B (set_o A (fresh A B r) o) eq_refl) as [[_ [_ H]]|[[i [_ [_ [_ H]]]]|[H _]]];
    [|rewrite H in Ec; discriminate Ec|cbn in H; lia].
  rewrite H. cbn [sn_st set_o sn_o]. replace (Z.to_nat (maxit o)) with (S (Z.to_nat (maxit o - 1))) by lia.
  cbn [walk sn_st]. rewrite <- Esj in Hji.
  eapply (reports_ok A ps SF B qj sj _ (sn_st A (walk A B (Z.to_nat (maxit o - 1)) (set_o A (fresh A B r) o))) HAj Hji);
    rewrite Esj; reflexivity.
Qed.
Print Assumptions C17_limit_previous.

Definition opt1 : settings (car FA) := (default_settings FA) <| maxit := 1 |>.

(** C17 fails with exit code 2: the objective value reported is not that of the point returned. *)
Theorem C17_limit_refuted : exists (u : user (car FA)) q f fv temp, valid_user noamd u /\
  session FA noamd u [SetOptions FA opt1; Solve FA] = Ok ([2], q) /\ fval (q_stats q) = Some f /\
  obj_value FA (q_P q) (q_c q) (q_x q) (q_temp q) = Ok (fv, temp) /\ feqb FA fv f = false.
Proof.
  exists (small FA).
  assert (C : match session FA noamd (small FA) [SetOptions FA opt1; Solve FA] with
    | Ok ([c], q) => match obj_value FA (q_P q) (q_c q) (q_x q) (q_temp q), fval (q_stats q) with
        | Ok (fv, _), Some f => (c =? 2) && negb (feqb FA fv f) | _, _ => false end
    | _ => false end = true) by (vm_compute; reflexivity).
  destruct (session FA noamd (small FA) [SetOptions FA opt1; Solve FA]) as [[[|c [|]] q]| |]; try discriminate C.
  destruct (obj_value FA (q_P q) (q_c q) (q_x q) (q_temp q)) as [[fv temp]| |] eqn:E1; try discriminate C.
  destruct (fval (q_stats q)) as [f|] eqn:E2; try discriminate C.
  apply andb_true_iff in C. destruct C as [C1 C2]. apply Z.eqb_eq in C1. subst c. apply negb_true_iff in C2.
  exists q, f, fv, temp. split; [apply small_valid|]. auto.
Qed.
Print Assumptions C17_limit_refuted.

(** ** Solving again *)

Definition tol (x : Z) (o : settings (car FA)) : settings (car FA) := o <| reltol := fofZ FA x |> <| abstol := fofZ FA x |>.

(** Recomputed test as a value. *)
Definition test_val (A : Arith) (o : settings (car A)) (q : qp (car A)) : bool :=
  match computeresiduals A q with
  | Ok q2 => match stop_test A (q2 <| q_options := o |>) with Ok b => b | _ => false end
  | _ => false end.
Lemma test_val_true A o q : test_val A o q = true -> test_at A o q true.
Proof.
  unfold test_val, test_at. destruct (computeresiduals A q) as [q2| |]; try discriminate.
  destruct (stop_test A _) as [b| |] eqn:E; try discriminate. intros ->. eauto.
Qed.
Lemma test_val_false A o q : test_val A o q = false -> ~ test_at A o q true.
Proof.
  unfold test_val, test_at. intros H [q2 [E1 E2]]. rewrite E1 in H. rewrite E2 in H. discriminate.
Qed.

(** A tolerance everything meets: code 0, no step.  Tolerance 0, limit 1: code 2, one step.  The generous
    tolerance again: code 0.  Tolerance 0, limit 3: three more steps, and the code is still 0. *)
Definition again_stale : list (call FA) :=
  [SetOptions FA (tol 1000000 (default_settings FA)); Solve FA;
   SetOptions FA (tol 0 ((default_settings FA) <| maxit := 1 |>)); Solve FA;
   SetOptions FA (tol 1000000 (default_settings FA)); Solve FA;
   SetOptions FA (tol 0 ((default_settings FA) <| maxit := 3 |>)); Solve FA].

(** C20 fails: a later call returns 0 although the point it returns does not pass the stopping test. *)
Theorem C20_stale_optimal_refuted : exists (u : user (car FA)) l o codes q, valid_user noamd u /\
  session FA noamd u (l ++ [SetOptions FA o; Solve FA]) = Ok (codes, q) /\
  last codes 3 = 0 /\ ~ test_at FA o q true.
Proof.
  exists (small FA), (firstn 6 again_stale), (tol 0 ((default_settings FA) <| maxit := 3 |>)).
  assert (C : match session FA noamd (small FA) again_stale with
    | Ok (codes, q) => (last codes 3 =? 0) && negb (test_val FA (tol 0 ((default_settings FA) <| maxit := 3 |>)) q)
    | _ => false end = true) by (vm_compute; reflexivity).
  change (firstn 6 again_stale ++ [SetOptions FA (tol 0 ((default_settings FA) <| maxit := 3 |>)); Solve FA]) with again_stale.
  destruct (session FA noamd (small FA) again_stale) as [[codes q]| |]; try discriminate C.
  apply andb_true_iff in C. destruct C as [C1 C2]. apply Z.eqb_eq in C1. apply negb_true_iff in C2.
  exists codes, q. split; [apply small_valid|]. split; auto. split; auto. apply test_val_false. exact C2.
Qed.
Print Assumptions C20_stale_optimal_refuted.

Definition again_limit : list (call FA) :=
  [SetOptions FA (tol 0 ((default_settings FA) <| maxit := 2 |>)); Solve FA;
   SetOptions FA (tol 1000000 ((default_settings FA) <| maxit := 2 |>)); Solve FA].

(** C20 fails: a later call returns 2 although its first test passed and it made no step. *)
Theorem C20_false_limit_refuted : exists (u : user (car FA)) l o codes q, valid_user noamd u /\
  session FA noamd u (l ++ [SetOptions FA o; Solve FA]) = Ok (codes, q) /\
  last codes 3 = 2 /\ test_at FA o q true.
Proof.
  exists (small FA), (firstn 2 again_limit), (tol 1000000 ((default_settings FA) <| maxit := 2 |>)).
  assert (C : match session FA noamd (small FA) again_limit with
    | Ok (codes, q) => (last codes 3 =? 2) && test_val FA (tol 1000000 ((default_settings FA) <| maxit := 2 |>)) q
    | _ => false end = true) by (vm_compute; reflexivity).
  change (firstn 2 again_limit ++ [SetOptions FA (tol 1000000 ((default_settings FA) <| maxit := 2 |>)); Solve FA]) with again_limit.
  destruct (session FA noamd (small FA) again_limit) as [[codes q]| |]; try discriminate C.
  apply andb_true_iff in C. destruct C as [C1 C2]. apply Z.eqb_eq in C1.
  exists codes, q. split; [apply small_valid|]. split; auto. split; auto. apply test_val_true. exact C2.
Qed.
Print Assumptions C20_false_limit_refuted.
