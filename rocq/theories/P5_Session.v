(** Properties of a session on valid data: memory safety (C26, C27), interior points (C11, C12), meaning of
    the exit code (C14, C18, C19, C20) and of the reported statistics (C17). *)
From Coq Require Import ZArith Reals List Lia Lra Bool.
From RecordUpdate Require Import RecordUpdate.
From Flocq Require Import IEEE754.BinarySingleNaN.
From Verif Require Import Res Partial Arith Lists MSparse Csc SemVec Flat TransposeProofs KktProofs MLdl LdlSym LdlNum LdlR
  LdlFun MSolver VecOps Iter SafeInst Setup Session Spec SpecLink QpSpec NewtonR Api Demo P4_Always.
Import ListNotations.
Open Scope Z_scope.
Open Scope res_scope.

(** ** Memory safety *)

(** C26: every session on valid data ends normally: no access outside a block, no read of a cell that was
    never written, no NULL dereference, no non-terminating loop, in IEEE double arithmetic whatever values
    (NaN and infinities included) the data and the options contain. *)
Theorem C26_memory_safe_binary64 amd u l : valid_user amd u -> quiet_calls FA u l ->
  exists codes q, session FA amd u l = Ok (codes, q).
Proof.
  intros V Hq. destruct (session_ok FA amd u l _ (Safe_total FA FA_total) V Hq) as [q0 [q [B [r [_ [_ [H _]]]]]]]. eauto.
Qed.
Print Assumptions C26_memory_safe_binary64.

(** Any arithmetic in which division and square root are defined everywhere. *)
Theorem C26_memory_safe_total (A : Arith) amd u l : total_arith A -> valid_user amd u -> quiet_calls A u l ->
  exists codes q, session A amd u l = Ok (codes, q).
Proof.
  intros HT V Hq. destruct (session_ok A amd u l _ (Safe_total A HT) V Hq) as [q0 [q [B [r [_ [_ [H _]]]]]]]. eauto.
Qed.
Print Assumptions C26_memory_safe_total.

(** Exact arithmetic: in addition no division by zero and no square root of a negative number. *)
Theorem C26_memory_safe_exact amd u l : valid_user amd u -> quiet_calls RA u l ->
  exists codes q, session RA amd u l = Ok (codes, q).
Proof.
  intros V Hq. destruct (session_ok RA amd u l _ Safe_R V Hq) as [q0 [q [B [r [_ [_ [H _]]]]]]]. eauto.
Qed.
Print Assumptions C26_memory_safe_exact.

(** ** Verbose output *)

Section Verbose.
Variable A : Arith.
Notation F := (car A).

Lemma callsF_n_ry B l : forall s, pp B = 0 -> n_ry (sn_st A s) = None -> n_ry (sn_st A (snd (callsF A B s l))) = None.
Proof.
  induction l as [|[o|] l IH]; intros s Hp Hs; cbn [callsF snd]; auto.
  apply IH; auto. unfold solveF.
  assert (H : forall k, n_ry (sn_st A (fst (runF A B k s))) = None).
  { induction k as [|k IHk]; cbn [runF]; auto. destruct (snd (runF A B k s)); auto.
    unfold iterF. destruct (stopF A B _ _); cbn; rewrite Hp; cbn; exact IHk. }
  unfold finalF. destruct (_ =? _); cbn; apply H.
Qed.

Lemma solve_iter_uninit B ps q pt : Safe A ps -> Base A B q -> Pt A B q pt -> pp B = 0 ->
  n_ry (q_stats q) = None -> 0 < verbose (q_options q) -> solve_iter A q = Ub Uninit.
Proof.
  intros SF HB HP Hp Hr Hv. unfold solve_iter.
  destruct (proj1 (wp_exists _ _) (computeresiduals_ok A B ps q pt SF HB HP)) as [q1 [E1 [rx [ry [rz [Eq1 [Hrx [Lry [Hry Hrz]]]]]]]]].
  rewrite E1. cbn [bind].
  assert (Hobj : wp (obj_value A (q_P q1) (q_c q1) (q_x q1) (q_temp q1)) (fun _ => True)).
  { eapply wp_mono; [eapply (obj_value_ok A _ _ _ _ (pn B) (pP B) (pc B) (ptX A pt))|auto].
    - rewrite Eq1. apply (b_P _ _ _ HB).
    - rewrite Eq1. apply (b_c _ _ _ HB).
    - rewrite Eq1. apply is_vec_vec, HP.
    - rewrite Eq1. apply (b_temp _ _ _ HB). }
  apply wp_exists in Hobj. destruct Hobj as [[fv temp] [E2 _]]. rewrite E2. cbn [bind]. cbv zeta.
  match goal with |- bind (print_line A ?x) _ = _ => assert (E3 : print_line A x = Ub Uninit) end.
  { unfold print_line. cbn. rewrite Eq1. cbn. destruct (Z.ltb_spec 0 (verbose (q_options q))); [|lia].
    rewrite Hp. cbn. rewrite Hr. reflexivity. }
  rewrite E3. reflexivity.
Qed.

Lemma run_calls_app l1 : forall q l2, run_calls A q (l1 ++ l2) =
  '(c1, q1) <- run_calls A q l1 ;; '(c2, q2) <- run_calls A q1 l2 ;; Ok (c1 ++ c2, q2).
Proof.
  induction l1 as [|[o|] l1 IH]; intros q l2; cbn [run_calls app].
  - cbn [bind]. destruct (run_calls A q l2) as [[c q']| |]; reflexivity.
  - apply IH.
  - destruct (QP_SOLVE A q) as [[c q1]| |]; cbn [bind]; auto. rewrite IH.
    destruct (run_calls A q1 l1) as [[c1 q2]| |]; cbn [bind]; auto.
    destruct (run_calls A q2 l2) as [[c2 q3]| |]; cbn [bind]; auto.
Qed.

Lemma session_app amd u l1 l2 c1 q1 : session A amd u l1 = Ok (c1, q1) ->
  session A amd u (l1 ++ l2) = '(c2, q2) <- run_calls A q1 l2 ;; Ok (c1 ++ c2, q2).
Proof.
  unfold session. destruct (setup A amd u) as [q0| |]; cbn [bind]; try discriminate. intros E.
  rewrite run_calls_app, E. reflexivity.
Qed.

End Verbose.

(** C27, refuted in general: for every valid problem without equality constraints, whatever was called
    before, the first progress line of a verbose solve uses n_ry, which was never assigned. *)
Theorem C27_verbose_uninitialised (A : Arith) ps amd u l o :
  Safe A ps -> valid_user amd u -> u_pe u = 0 -> quiet_calls A u l -> 0 < verbose o -> 1 <= maxit o ->
  session A amd u (l ++ [SetOptions A o; Solve A]) = Ub Uninit.
Proof.
  intros SF V Hp Hq Hv Hm. destruct (session_ok A amd u l _ SF V Hq) as [q0 [q [B [r [H1 [H2 [H3 [H4 [H5 _]]]]]]]]].
  rewrite (session_app A amd u l _ _ _ H3). cbn [run_calls].
  destruct (sd_n _ _ _ _ _ H2) as [_ [_ [Epp _]]]. rewrite Hp in Epp.
  pose proof (callsF_n_ry A B l (fresh A B r) Epp eq_refl) as Hry.
  assert (Hfl : Flag (q_stats q) <> QP_KKTFAIL).
  { pose proof H3 as H3'. unfold session in H3'. rewrite H1 in H3'. cbn [bind] in H3'.
    apply (run_calls_always A l q0 ltac:(rewrite (at_st _ _ _ _ (sd_at _ _ _ _ _ H2)); cbn; discriminate) _ H3'). }
  set (s := snd (callsF A B (fresh A B r) l)) in *. pose proof (At_set_o A B q s o H4) as HA.
  unfold QP_SOLVE. change (Flag (q_stats (q <| q_options := o |>))) with (Flag (q_stats q)).
  destruct (Z.eqb_spec (Flag (q_stats q)) QP_KKTFAIL) as [E|_]; [contradiction|].
  rewrite for_step by (cbn; lia).
  rewrite (solve_iter_uninit A B ps _ (sn_pt A s) SF (at_base _ _ _ _ HA) (at_pt _ _ _ _ HA) Epp); auto.
  - rewrite (at_st _ _ _ _ HA). exact Hry.
Qed.
Print Assumptions C27_verbose_uninitialised.

Theorem C27_verbose_defined_refuted : exists u : user (car FA), (forall amd, valid_user amd u) /\
  forall amd, session FA amd u [SetOptions FA ((default_settings FA) <| verbose := 1 |>); Solve FA] = Ub Uninit.
Proof.
  exists (small FA). split; [apply small_valid|]. intros amd.
  apply (C27_verbose_uninitialised FA _ amd (small FA) [] _ (Safe_total FA FA_total) (small_valid FA amd)); cbn.
  - reflexivity.
  - right. intros o [].
  - lia.
  - lia.
Qed.
Print Assumptions C27_verbose_defined_refuted.

(** With equality constraints every verbosity is fine. *)
Theorem C27_verbose_with_equalities amd u l : valid_user amd u -> u_pe u <> 0 ->
  exists codes q, session FA amd u l = Ok (codes, q).
Proof. intros V Hp. apply C26_memory_safe_binary64; auto. left. exact Hp. Qed.
Print Assumptions C27_verbose_with_equalities.

Example C26_case amd : valid_user amd (demo FA) /\ quiet_calls FA (demo FA) [Solve FA; Solve FA].
Proof. split; [apply demo_valid|]. left. discriminate. Qed.
Example C27_case amd : valid_user amd (small FA) /\ u_pe (small FA) = 0 /\ valid_user amd (demo FA) /\ u_pe (demo FA) <> 0.
Proof. split; [apply small_valid|]. split; [reflexivity|]. split; [apply demo_valid|discriminate]. Qed.

(** ** What one solve on a fresh handle does *)

Section First.
Variable A : Arith.
Notation F := (car A).
Variable ps : F -> Prop.
Hypothesis SF : Safe A ps.

(** The problem and the starting state of a user, fixed once. *)
Lemma session_from amd u : valid_user amd u -> exists q0 B r, setup A amd u = Ok q0 /\ Started A u B q0 r /\
  forall l, quiet_calls A u l -> exists q, session A amd u l = Ok (fst (callsF A B (fresh A B r) l), q) /\
    At A B q (snd (callsF A B (fresh A B r) l)) /\ interior A B ps (sn_pt A (snd (callsF A B (fresh A B r) l))).
Proof.
  intros V. destruct (proj1 (wp_exists _ _) (setup_ok A amd u (sf_piv _ _ SF) V)) as [q0 [E [B [r HS]]]].
  exists q0, B, r. split; auto. split; auto. intros l Hq.
  assert (Hrun : wp (run_calls A q0 l) (fun x => fst x = fst (callsF A B (fresh A B r) l) /\
     At A B (snd x) (snd (callsF A B (fresh A B r) l)) /\
     interior A B ps (sn_pt A (snd (callsF A B (fresh A B r) l))) /\ frame A q0 (snd x))).
  { apply (run_calls_ok A B ps l q0 (fresh A B r)); auto.
    - apply HS.
    - apply initF_interior. auto.
    - cbn. discriminate.
    - right. cbn. lia.
    - unfold quiet. destruct (sd_n _ _ _ _ _ HS) as [_ [_ [-> _]]]. exact Hq. }
  apply wp_exists in Hrun. destruct Hrun as [[codes q] [E2 [H1 [H2 [H3 H4]]]]]. cbn [fst snd] in *.
  exists q. split; auto. unfold session. rewrite E. cbn [bind]. rewrite E2, H1. reflexivity.
Qed.

(** Points and centering parameters do not depend on tolerances, limits or verbosity. *)
Lemma walk_indep B k : forall s o1 o2, sigma o1 = sigma o2 ->
  sn_pt A (walk A B k (set_o A s o1)) = sn_pt A (walk A B k (set_o A s o2)) /\
  sigma (sn_o A (walk A B k (set_o A s o1))) = sigma (sn_o A (walk A B k (set_o A s o2))) /\
  sn_st A (walk A B k (set_o A s o1)) = sn_st A (walk A B k (set_o A s o2)).
Proof.
  induction k as [|k IH]; intros s o1 o2 Hs; cbn [walk]; [auto|].
  destruct (IH s o1 o2 Hs) as [H1 [H2 H3]]. cbn. rewrite H1, H2, H3. auto.
Qed.

Lemma At_point B q s : At A B q s -> Pt A B q (sn_pt A s).
Proof. intros H. apply H. Qed.

Lemma nth_ext {T} (a : list T) : forall b, (forall i, nth_error a i = nth_error b i) -> a = b.
Proof.
  induction a as [|x a IH]; intros [|y b] H; auto.
  - discriminate (H O).
  - discriminate (H O).
  - injection (H O) as ->. f_equal. apply IH. intros i. exact (H (S i)).
Qed.

(** A point determines the arrays of the handle. *)
Lemma is_vec_eq {T} (a b : arr T) n f : is_vec a n f -> is_vec b n f -> a = b.
Proof.
  intros [L1 R1] [L2 R2]. apply nth_ext. intros i.
  destruct (Nat.lt_ge_cases i (length a)) as [Hi|Hi].
  - assert (Hz : 0 <= Z.of_nat i < n) by (unfold zlen in *; lia).
    pose proof (R1 _ Hz) as E1. pose proof (R2 _ Hz) as E2. unfold rd in E1, E2.
    destruct (Z.ltb_spec (Z.of_nat i) 0); [lia|]. rewrite Nat2Z.id in E1, E2.
    destruct (nth_error a i) as [[v|]|]; try discriminate. destruct (nth_error b i) as [[w|]|]; try discriminate. congruence.
  - rewrite (proj2 (nth_error_None a i) Hi). symmetry. apply nth_error_None. unfold zlen in *. lia.
Qed.

(** ** Exit code and iteration count in terms of the points visited *)

Section Codes.
Variables (amd : amd_t) (u : user F) (o : settings F) (nv : F).
Variables (q0 : qp F) (B : prob F) (r : Z).
Hypothesis HSt : Started A u B q0 r.
Hypothesis Hses : forall l, quiet_calls A u l -> exists q, session A amd u l = Ok (fst (callsF A B (fresh A B r) l), q) /\
    At A B q (snd (callsF A B (fresh A B r) l)) /\ interior A B ps (sn_pt A (snd (callsF A B (fresh A B r) l))).
Hypothesis Hq : quiet_calls A u [SetOptions A o; Solve A].
Hypothesis Hnv : forall pt, interior A B ps pt -> flt A (nmuF A B pt) nv = false.
Variable T : qp F -> Prop.
Hypothesis HT : forall q s, At A B q s -> interior A B ps (sn_pt A s) -> (T q <-> stopF A B (sn_pt A s) o = true).

Let oj (j : Z) : settings F := o <| maxit := j |> <| abstol := nv |>.
Let it (j : Z) (q : qp F) : Prop := session A amd u [SetOptions A (oj j); Solve A] = Ok ([2], q).
Let s0 : snap A := set_o A (fresh A B r) o.
Let w (j : Z) : snap A := walk A B (Z.to_nat j) s0.

Lemma one_solve o' : verbose o' = verbose o -> exists q, session A amd u [SetOptions A o'; Solve A] =
   Ok ([Flag (sn_st A (solveF A B (set_o A (fresh A B r) o')))], q) /\ At A B q (solveF A B (set_o A (fresh A B r) o')) /\
   interior A B ps (sn_pt A (solveF A B (set_o A (fresh A B r) o'))).
Proof.
  intros Hv. destruct (Hses [SetOptions A o'; Solve A]) as [q [H1 [H2 H3]]]; [|exists q; auto].
  destruct Hq as [H|H]; [left; auto|]. right. intros o1 [E|[E|[]]]; [|discriminate E]. injection E as <-.
  rewrite Hv. apply H. left. reflexivity.
Qed.

Lemma w_interior j : interior A B ps (sn_pt A (w j)).
Proof. apply walk_interior; auto. apply initF_interior. exact SF. Qed.

Lemma w_oj j j' : sn_pt A (walk A B (Z.to_nat j) (set_o A (fresh A B r) (oj j'))) = sn_pt A (w j) /\
  sn_st A (walk A B (Z.to_nat j) (set_o A (fresh A B r) (oj j'))) = sn_st A (w j).
Proof.
  destruct (walk_indep B (Z.to_nat j) (fresh A B r) (oj j') o eq_refl) as [H1 [H2 H3]]. auto.
Qed.

Lemma no_stop j i : stops A B (walk A B i (set_o A (fresh A B r) (oj j))) = false.
Proof.
  unfold stops, stopF. rewrite walk_abstol. cbn [set_o sn_o oj abstol]. cbn.
  rewrite Hnv; [apply andb_false_r|]. apply walk_interior; auto. apply initF_interior. exact SF.
Qed.

Lemma it_exists j : 0 <= j -> exists q, it j q.
Proof.
  intros Hj. destruct (one_solve (oj j) eq_refl) as [q [E [HA _]]]. exists q. unfold it. rewrite E. do 3 f_equal.
  destruct (solveF_fresh A B (set_o A (fresh A B r) (oj j)) eq_refl) as [[_ [_ H]]|[[i [_ [H _]]]|[H _]]].
  - rewrite H. reflexivity.
  - rewrite no_stop in H. discriminate.
  - cbn in H. lia.
Qed.

Lemma it_at j q : it j q -> 0 <= j /\ Pt A B q (sn_pt A (w j)) /\ interior A B ps (sn_pt A (w j)) /\
  (exists s, At A B q s /\ sn_pt A s = sn_pt A (w j)).
Proof.
  unfold it. intros E. destruct (one_solve (oj j) eq_refl) as [q' [E' [HA Hi]]]. rewrite E' in E. injection E as Ef <-.
  destruct (solveF_fresh A B (set_o A (fresh A B r) (oj j)) eq_refl) as [[Hj [_ H]]|[[i [_ [H _]]]|[Hj H]]].
  - cbn [set_o sn_o oj maxit] in Hj. cbn in Hj. split; auto. rewrite H in HA, Hi. cbn [sn_pt] in Hi.
    pose proof (At_point _ _ _ HA) as HP. cbn [sn_pt] in HP. cbn [set_o sn_o] in HP.
    change (maxit (oj j)) with j in HP. rewrite (proj1 (w_oj j j)) in HP.
    split; auto. split; [apply w_interior|]. eexists. split; [exact HA|]. cbn [sn_pt set_o sn_o].
    change (maxit (oj j)) with j. apply w_oj.
  - rewrite no_stop in H. discriminate.
  - rewrite H in Ef. cbn in Ef. discriminate.
Qed.

Lemma it_T j q : it j q -> (T q <-> stops A B (w j) = true).
Proof.
  intros H. destruct (it_at _ _ H) as [Hj [_ [Hi [s [HA Es]]]]]. rewrite (HT q s HA) by (rewrite Es; exact Hi).
  rewrite Es. unfold stops, stopF, w.
  rewrite walk_abstol, walk_reltol. reflexivity.
Qed.

Theorem codes_core : exists code q, session A amd u [SetOptions A o; Solve A] = Ok ([code], q) /\
  (code = 0 \/ code = 2 \/ code = 3) /\
  (code = 0 <-> exists j qj, 0 <= j < maxit o /\ it j qj /\ T qj) /\
  (code = 2 <-> 0 <= maxit o /\ forall j qj, 0 <= j < maxit o -> it j qj -> ~ T qj) /\
  (code = 3 <-> maxit o < 0) /\
  IterationCount (q_stats q) <= Z.max 0 (maxit o) /\
  (code = 0 -> IterationCount (q_stats q) < maxit o) /\ (code = 2 -> IterationCount (q_stats q) = maxit o) /\
  (exists qj, it (IterationCount (q_stats q)) qj /\
     q_x q = q_x qj /\ q_y q = q_y qj /\ q_z q = q_z qj /\ q_s q = q_s qj) /\
  (forall j qj, 0 <= j < IterationCount (q_stats q) -> it j qj -> ~ T qj).
Proof.
  destruct (one_solve o eq_refl) as [q [E [HA Hi]]]. fold s0 in E, HA, Hi.
  exists (Flag (sn_st A (solveF A B s0))), q. split; [exact E|].
  assert (Hpt : forall j, 0 <= j -> sn_pt A (solveF A B s0) = sn_pt A (w j) -> exists qj, it j qj /\
     q_x q = q_x qj /\ q_y q = q_y qj /\ q_z q = q_z qj /\ q_s q = q_s qj).
  { intros j Hj Ep. destruct (it_exists j Hj) as [qj Ej]. exists qj. split; auto.
    destruct (it_at _ _ Ej) as [_ [[X1 Y1 Z1 S1] _]].
    pose proof (At_point _ _ _ HA) as [X2 Y2 Z2 S2]. rewrite Ep in *.
    repeat split; eapply is_vec_eq; eauto. }
  rewrite (at_st _ _ _ _ HA).
  destruct (solveF_fresh A B s0 eq_refl) as [[Hm [Hn H]]|[[i [Him [Hs [Hn H]]]]|[Hm H]]];
    change (maxit (sn_o A s0)) with (maxit o) in *; rewrite H; cbn [sn_st Flag].
  - assert (Hno : forall j qj, 0 <= j < maxit o -> it j qj -> ~ T qj).
    { intros j qj Hj Hit HTq. apply (it_T _ _ Hit) in HTq. unfold w in HTq. rewrite Hn in HTq by lia. discriminate. }
    assert (EI : IterationCount (sn_st A (walk A B (Z.to_nat (maxit o)) s0)) = maxit o).
    { rewrite walk_iter. cbn. lia. }
    cbn. rewrite EI. split; [auto|]. split; [|split; [|split; [|split; [|split; [|split; [|split]]]]]].
    + split; [discriminate|]. intros [j [qj [Hj [Hit HTq]]]]. destruct (Hno j qj Hj Hit HTq).
    + split; auto.
    + split; [discriminate|lia].
    + lia.
    + discriminate.
    + auto.
    + apply Hpt; auto. rewrite H. reflexivity.
    + exact Hno.
  - cbn. assert (Ei : IterationCount (sn_st A (walk A B i s0)) = Z.of_nat i) by (rewrite walk_iter; reflexivity).
    rewrite Ei. destruct (it_exists (Z.of_nat i) ltac:(lia)) as [qi Eit].
    assert (HTi : T qi). { apply (it_T _ _ Eit). unfold w. rewrite Nat2Z.id. exact Hs. }
    split; [auto|]. split; [|split; [|split; [|split; [|split; [|split; [|split]]]]]].
    + split; [|reflexivity]. intros _. exists (Z.of_nat i), qi. split; [lia|auto].
    + split; [discriminate|]. intros [_ Hall]. destruct (Hall (Z.of_nat i) qi ltac:(lia) Eit HTi).
    + split; [discriminate|lia].
    + lia.
    + lia.
    + discriminate.
    + apply Hpt; [lia|]. rewrite H. unfold w. rewrite Nat2Z.id. reflexivity.
    + intros j qj Hj Hit HTq. apply (it_T _ _ Hit) in HTq. unfold w in HTq. rewrite Hn in HTq by lia. discriminate.
  - cbn. split; [auto|]. split; [|split; [|split; [|split; [|split; [|split; [|split]]]]]].
    + split; [discriminate|]. intros [j [qj [Hj _]]]. lia.
    + split; [discriminate|lia].
    + split; auto.
    + lia.
    + discriminate.
    + discriminate.
    + apply Hpt; [lia|]. rewrite H. reflexivity.
    + lia.
Qed.

End Codes.
End First.

(** ** Tests and statistics recomputed at the point in a handle *)

(** The stopping test with options [o], evaluated from scratch at the point in the handle, gives [b]. *)
Definition test_at (A : Arith) (o : settings (car A)) (q : qp (car A)) (b : bool) : Prop :=
  exists q2, computeresiduals A q = Ok q2 /\ stop_test A (q2 <| q_options := o |>) = Ok b.

(** The reported statistics are those of the point in [q']. *)
Definition reports (A : Arith) (st : stats (car A)) (q' : qp (car A)) : Prop :=
  exists q2 fv temp, computeresiduals A q' = Ok q2 /\ obj_value A (q_P q') (q_c q') (q_x q') (q_temp q') = Ok (fv, temp) /\
    n_rx st = n_rx (q_stats q2) /\ n_rz st = n_rz (q_stats q2) /\ n_mu st = n_mu (q_stats q2) /\
    (q_p q' <> 0 -> n_ry st = n_ry (q_stats q2)) /\ fval st = Some fv.

Section Recompute.
Variable A : Arith.
Notation F := (car A).
Variable ps : F -> Prop.
Hypothesis SF : Safe A ps.

Lemma test_at_ok B q s o : At A B q s -> interior A B ps (sn_pt A s) -> test_at A o q (stopF A B (sn_pt A s) o).
Proof.
  intros HA Hi. destruct HA as [HB HP Ho Hst].
  destruct (proj1 (wp_exists _ _) (computeresiduals_ok A B ps q (sn_pt A s) SF HB HP)) as [q1 [E1 [rx [ry [rz [Eq1 _]]]]]].
  exists q1. split; auto. unfold stop_test.
  assert (Est : q_stats (q1 <| q_options := o |>) = (resid_stats A B (sn_pt A s) (q_stats q)) <| fval := fval (q_stats q) |>)
    by (rewrite Eq1; reflexivity).
  assert (Ep : q_p (q1 <| q_options := o |>) = pp B) by (rewrite Eq1; apply (b_p _ _ _ HB)).
  rewrite Est, Ep. change (q_options (q1 <| q_options := o |>)) with o.
  rewrite (sq_ok A (fofZ A 3)) by (apply (sf_tol1 _ _ SF)). cbn [bind].
  rewrite (dv_ok A) by (apply (sf_tol2 _ _ SF)). cbn. unfold stopF.
  destruct (Z.eqb_spec (pp B) 0) as [E|E]; cbn; [rewrite andb_true_r; reflexivity|reflexivity].
Qed.

Lemma test_at_fun o q b b' : test_at A o q b -> test_at A o q b' -> b = b'.
Proof. intros [q1 [E1 H1]] [q2 [E2 H2]]. rewrite E1 in E2. injection E2 as <-. congruence. Qed.

Lemma test_at_iff B q s o : At A B q s -> interior A B ps (sn_pt A s) ->
  (test_at A o q true <-> stopF A B (sn_pt A s) o = true).
Proof.
  intros HA Hi. pose proof (test_at_ok B q s o HA Hi) as H. split.
  - intros H'. exact (test_at_fun _ _ _ _ H H').
  - intros E. rewrite E in H. exact H.
Qed.

Lemma reports_ok B q s st st' : At A B q s -> interior A B ps (sn_pt A s) ->
  n_rx st = n_rx (resid_stats A B (sn_pt A s) st') -> n_rz st = n_rz (resid_stats A B (sn_pt A s) st') ->
  n_mu st = n_mu (resid_stats A B (sn_pt A s) st') -> n_ry st = n_ry (resid_stats A B (sn_pt A s) st') ->
  fval st = Some (fvalF A B (sn_pt A s)) -> reports A st q.
Proof.
  intros HA Hi H1 H2 H3 H4 H5. destruct HA as [HB HP Ho Hst].
  destruct (proj1 (wp_exists _ _) (computeresiduals_ok A B ps q (sn_pt A s) SF HB HP)) as [q1 [E1 [rx [ry [rz [Eq1 _]]]]]].
  assert (Hobj : wp (obj_value A (q_P q) (q_c q) (q_x q) (q_temp q)) (fun r => fst r = fvalF A B (sn_pt A s))).
  { eapply wp_mono; [eapply (obj_value_ok A _ _ _ _ (pn B) (pP B) (pc B) (ptX A (sn_pt A s)))|].
    - apply (b_P _ _ _ HB).
    - apply (b_c _ _ _ HB).
    - apply is_vec_vec, HP.
    - apply (b_temp _ _ _ HB).
    - intros [fv temp] [E _]. exact E. }
  apply wp_exists in Hobj. destruct Hobj as [[fv temp] [E2 Efv]]. cbn [fst] in Efv. subst fv.
  exists q1, (fvalF A B (sn_pt A s)), temp. split; auto. split; auto. rewrite Eq1. cbn in *.
  split; auto. split; auto. split; auto. split; auto. intros Hp. rewrite H4. rewrite (b_p _ _ _ HB) in Hp.
  destruct (Z.eqb_spec (pp B) 0); [contradiction|reflexivity].
Qed.

End Recompute.
