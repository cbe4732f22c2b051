(** Property C71: tolerances, iteration limit and verbosity only decide when a solve stops. *)
From Coq Require Import ZArith Reals List Lia Lra Bool.
From RecordUpdate Require Import RecordUpdate.
From Flocq Require Import Core IEEE754.BinarySingleNaN.
From Verif Require Import Res Partial Arith Lists MSparse MSolver SemVec Flat Iter SafeInst Setup Session Spec Api Demo P5_Session P6_Codes P14_Round P21_Single.
Import ListNotations.
Open Scope Z_scope.
Open Scope res_scope.

(** ** Specification *)

(** The comparison with a scaled tolerance is monotone in the tolerance. *)
Record monotone (A : Arith) : Prop := mkMonotone {
  mo_lt : forall x a b, flt A x a = true -> fle A a b = true -> flt A x b = true;
  mo_div : forall a b r a' b', fsqrt A (fofZ A 3) = Ok r -> fdiv A a r = Ok a' -> fdiv A b r = Ok b' ->
    fle A a b = true -> fle A a' b' = true
}.

(** [o'] accepts whatever [o] accepts. *)
Record looser (A : Arith) (o o' : settings (car A)) : Prop := mkLooser {
  lo_rel : fle A (reltol o) (reltol o') = true;
  lo_abs : fle A (abstol o) (abstol o') = true;
  lo_max : maxit o <= maxit o';
  lo_sigma : sigma o' = sigma o
}.

(** The same point. *)
Definition same_point {F} (q q' : qp F) : Prop := q_x q' = q_x q /\ q_y q' = q_y q /\ q_z q' = q_z q /\ q_s q' = q_s q.

(** ** Proof *)

Section Proof.
Variable A : Arith.
Notation F := (car A).
Variable B : prob F.

Fixpoint path (pt : point A) (sg : F) (k : nat) : point A * F :=
  match k with O => (pt, sg) | S k => let r := path pt sg k in (nextF A B (fst r) (snd r), sigF A B (fst r) (snd r)) end.

Definition stopsAt (o : settings F) (pt : point A) : bool := stopF A B pt o.

Record shaped (s : snap A) (k j : nat) (r : snap A * bool) : Prop := mkShaped {
  sh_le : (j <= k)%nat;
  sh_pt : sn_pt A (fst r) = fst (path (sn_pt A s) (sigma (sn_o A s)) j);
  sh_o : sn_o A (fst r) = (sn_o A s) <| sigma := snd (path (sn_pt A s) (sigma (sn_o A s)) j) |>;
  sh_it : IterationCount (sn_st A (fst r)) = IterationCount (sn_st A s) + Z.of_nat j;
  sh_run : forall i, (i < j)%nat -> stopsAt (sn_o A s) (fst (path (sn_pt A s) (sigma (sn_o A s)) i)) = false;
  sh_stop : snd r = true -> (j < k)%nat /\ Flag (sn_st A (fst r)) = QP_OPTIMAL /\ stopsAt (sn_o A s) (fst (path (sn_pt A s) (sigma (sn_o A s)) j)) = true;
  sh_go : snd r = false -> j = k /\ Flag (sn_st A (fst r)) = Flag (sn_st A s)
}.

Lemma run_shaped k s : exists j, shaped s k j (runF A B k s).
Proof.
  induction k as [|k [j [H1 H2 H3 H4 H5 H6 H7]]].
  - exists 0%nat. destruct s as [pt [] st]. split; cbn; auto; try lia; try discriminate.
  - cbn [runF]. cbv zeta. destruct (snd (runF A B k s)) eqn:E.
    + exists j. split; auto; [intros _; destruct (H6 eq_refl) as [? [? ?]]; split; [lia|auto]|rewrite E; discriminate].
    + destruct (H7 eq_refl) as [-> H8]. clear H6 H7. set (r := fst (runF A B k s)) in *. unfold iterF.
      assert (Es : stopF A B (sn_pt A r) (sn_o A r) = stopsAt (sn_o A s) (fst (path (sn_pt A s) (sigma (sn_o A s)) k))) by (rewrite H2, H3; reflexivity).
      rewrite Es. destruct (stopsAt _ _) eqn:Est.
      * exists k. split; cbn [fst snd sn_pt sn_o sn_st]; auto; try discriminate. all: intros _; split; [lia|]; split; [reflexivity|exact Est].
      * exists (S k). split; cbn [fst snd sn_pt sn_o sn_st]; auto; try discriminate.
        -- rewrite H2, H3. reflexivity.
        -- rewrite H2, H3. cbn [path snd]. destruct (sn_o A s). reflexivity.
        -- change (IterationCount (step_stats A B (sn_pt A r) (sigma (sn_o A r)) (sn_st A r))) with (IterationCount (sn_st A r) + 1). rewrite H4. lia.
        -- intros i Hi. destruct (Nat.eq_dec i k) as [->|]; [exact Est|apply H5; lia].
Qed.

Lemma first_unique (f : nat -> bool) j j' : (forall i, (i < j)%nat -> f i = false) -> (forall i, (i < j')%nat -> f i = false) -> f j = true -> f j' = true -> j = j'.
Proof. intros H H' E E'. destruct (lt_eq_lt_dec j j') as [[L|L]|L]; auto; [rewrite (H' j L) in E|rewrite (H j' L) in E']; discriminate. Qed.

Variable ps : F -> Prop.
Hypothesis SF : Safe A ps.

Lemma stop_looser pt o o' : monotone A -> looser A o o' -> stopsAt o pt = true -> stopsAt o' pt = true.
Proof.
  intros HM [H1 H2 _ _]. unfold stopsAt, stopF. cbv zeta. intros H.
  assert (Ht : fle A (LdlFun.dv A (reltol o) (LdlFun.sq A (fofZ A 3))) (LdlFun.dv A (reltol o') (LdlFun.sq A (fofZ A 3))) = true).
  { eapply (mo_div _ HM); [apply LdlFun.sq_ok, (sf_tol1 _ _ SF)|apply LdlFun.dv_ok, (sf_tol2 _ _ SF)|apply LdlFun.dv_ok, (sf_tol2 _ _ SF)|exact H1]. }
  repeat (apply andb_prop in H; destruct H as [H ?]). repeat (apply andb_true_intro; split); try (eapply (mo_lt _ HM); eassumption).
  destruct (pp B =? 0); [reflexivity|]. eapply (mo_lt _ HM); eassumption.
Qed.

(** Number of iterations of a solve and how it ends. *)
Lemma solve_shaped s : exists j b, shaped s (Z.to_nat (maxit (sn_o A s))) j (fst (runF A B (Z.to_nat (maxit (sn_o A s))) s), b) /\
  solveF A B s = finalF A (fst (runF A B (Z.to_nat (maxit (sn_o A s))) s)).
Proof. destruct (run_shaped (Z.to_nat (maxit (sn_o A s))) s) as [j H]. exists j, (snd (runF A B (Z.to_nat (maxit (sn_o A s))) s)). rewrite <- surjective_pairing. split; [exact H|reflexivity]. Qed.

Lemma final_it s : IterationCount (sn_st A (finalF A s)) = IterationCount (sn_st A s).
Proof. unfold finalF. destruct (_ =? _); reflexivity. Qed.

Lemma solve_point s : exists j, sn_pt A (solveF A B s) = fst (path (sn_pt A s) (sigma (sn_o A s)) j) /\
  sigma (sn_o A (solveF A B s)) = snd (path (sn_pt A s) (sigma (sn_o A s)) j) /\
  IterationCount (sn_st A (solveF A B s)) = IterationCount (sn_st A s) + Z.of_nat j.
Proof.
  destruct (solve_shaped s) as [j [b [[H1 H2 H3 H4 H5 H6 H7] ->]]]. exists j. cbn [fst] in *. rewrite finalF_pt, finalF_o, final_it.
  split; [exact H2|]. split; [rewrite H3; reflexivity|exact H4].
Qed.

(** The first solve: count and code start at 0 and FATAL. *)
Record ends (s : snap A) (j : nat) (t : snap A) : Prop := mkEnds {
  en_pt : sn_pt A t = fst (path (sn_pt A s) (sigma (sn_o A s)) j);
  en_o : sn_o A t = (sn_o A s) <| sigma := snd (path (sn_pt A s) (sigma (sn_o A s)) j) |>;
  en_it : IterationCount (sn_st A t) = Z.of_nat j;
  en_run : forall i, (i < j)%nat -> stopsAt (sn_o A s) (fst (path (sn_pt A s) (sigma (sn_o A s)) i)) = false;
  en_code : (Flag (sn_st A t) = QP_OPTIMAL /\ (j < Z.to_nat (maxit (sn_o A s)))%nat /\ stopsAt (sn_o A s) (fst (path (sn_pt A s) (sigma (sn_o A s)) j)) = true) \/
            (Flag (sn_st A t) = QP_MAXIT /\ j = Z.to_nat (maxit (sn_o A s)) /\ 0 <= maxit (sn_o A s)) \/
            (Flag (sn_st A t) = QP_FATAL /\ j = 0%nat /\ maxit (sn_o A s) < 0)
}.

Lemma first_ends s : IterationCount (sn_st A s) = 0 -> Flag (sn_st A s) = QP_FATAL -> exists j, ends s j (solveF A B s).
Proof.
  intros Hi Hf. destruct (solve_shaped s) as [j [b [[H1 H2 H3 H4 H5 H6 H7] ->]]]. cbn [fst snd] in *. exists j. rewrite Hi, Z.add_0_l in H4.
  split; rewrite ?finalF_pt, ?finalF_o, ?final_it; auto. unfold finalF. rewrite H4, H3. cbn [maxit]. change (maxit ((sn_o A s) <| sigma := _ |>)) with (maxit (sn_o A s)).
  destruct b.
  - destruct (H6 eq_refl) as [G1 [G2 G3]]. destruct (Z.eqb_spec (Z.of_nat j) (maxit (sn_o A s))); [lia|]. left. split; [exact G2|]. split; [exact G1|exact G3].
  - destruct (H7 eq_refl) as [-> G2]. right. destruct (Z.eqb_spec (Z.of_nat (Z.to_nat (maxit (sn_o A s)))) (maxit (sn_o A s))).
    + left. cbn. split; [reflexivity|]. split; [reflexivity|lia].
    + right. split; [congruence|]. split; lia.
Qed.

Lemma pt_same q q' s s' : At A B q s -> At A B q' s' -> sn_pt A s' = sn_pt A s -> same_point q q'.
Proof.
  intros [_ [X Y Z S] _ _] [_ [X' Y' Z' S'] _ _] E. rewrite E in *. repeat split; eapply arr_ext; eassumption.
Qed.
End Proof.

Section Props.
Variable A : Arith.
Notation F := (car A).
Variable ps : F -> Prop.
Hypothesis SF : Safe A ps.
Variable amd : amd_t.
Variable u : user F.
Hypothesis V : valid_user amd u.

(** From any state: two solves with the same sigma that make the same number of iterations end at the same point with
    the same centering parameter, whatever the tolerances, limits and verbosities. *)
Theorem C71_determined l o1 o2 c1 c2 q1 q2 :
  quiet_calls A u (l ++ [SetOptions A o1; Solve A]) -> quiet_calls A u (l ++ [SetOptions A o2; Solve A]) ->
  sigma o1 = sigma o2 ->
  session A amd u (l ++ [SetOptions A o1; Solve A]) = Ok (c1, q1) -> session A amd u (l ++ [SetOptions A o2; Solve A]) = Ok (c2, q2) ->
  IterationCount (q_stats q1) = IterationCount (q_stats q2) -> same_point q1 q2 /\ sigma (q_options q1) = sigma (q_options q2).
Proof.
  intros Q1 Q2 Hsg E1 E2 HI. destruct (session_from A ps SF amd u V) as [q0 [B [r [_ [_ HF]]]]].
  destruct (HF _ Q1) as [qa [Ea [HA _]]]. rewrite E1 in Ea. injection Ea as _ <-. destruct (HF _ Q2) as [qb [Eb [HB _]]]. rewrite E2 in Eb. injection Eb as _ <-.
  rewrite callsF_app in HA, HB. cbn [callsF snd] in HA, HB. set (s := snd (callsF A B (fresh A B r) l)) in *.
  destruct (solve_point A B (set_o A s o1)) as [j1 [P1 [S1 I1]]]. destruct (solve_point A B (set_o A s o2)) as [j2 [P2 [S2 I2]]].
  rewrite (at_st _ _ _ _ HA), (at_st _ _ _ _ HB), I1, I2 in HI. cbn [set_o sn_st sn_o sn_pt] in *. assert (j1 = j2) by lia. subst j2. rewrite Hsg in *.
  split; [eapply pt_same; [exact HA|exact HB|congruence]|]. rewrite (at_o _ _ _ _ HA), (at_o _ _ _ _ HB). congruence.
Qed.

Lemma first_solve o : quiet_calls A u [SetOptions A o; Solve A] -> forall B r, (forall l, quiet_calls A u l -> exists q, session A amd u l = Ok (fst (callsF A B (fresh A B r) l), q) /\
    At A B q (snd (callsF A B (fresh A B r) l)) /\ interior A B ps (sn_pt A (snd (callsF A B (fresh A B r) l)))) ->
  exists j q t, session A amd u [SetOptions A o; Solve A] = Ok ([Flag (q_stats q)], q) /\ At A B q t /\ ends A B (set_o A (fresh A B r) o) j t /\ IterationCount (q_stats q) = Z.of_nat j.
Proof.
  intros Q B r HF. destruct (HF _ Q) as [q [E [HA _]]]. cbn [callsF fst snd] in E, HA. destruct (first_ends A B (set_o A (fresh A B r) o) eq_refl eq_refl) as [j Hj].
  exists j, q, (solveF A B (set_o A (fresh A B r) o)). rewrite (at_st _ _ _ _ HA). split; [exact E|]. split; [exact HA|]. split; [exact Hj|]. apply Hj.
Qed.

Lemma quiet_same o' : (u_pe u <> 0 \/ verbose o' <= 0) -> quiet_calls A u [SetOptions A o'; Solve A].
Proof. intros [H|H]; [left; exact H|right]. intros x [X|[X|[]]]; [injection X as <-; exact H|discriminate X]. Qed.

(** The iteration limit: a first solve that returns 0 after k iterations returns 0 with the same result for every limit
    above k, and MAXIT after exactly K iterations for every limit K between 0 and k. *)
Theorem C71_limit o q K : quiet_calls A u [SetOptions A o; Solve A] ->
  session A amd u [SetOptions A o; Solve A] = Ok ([QP_OPTIMAL], q) -> 0 <= K ->
  exists q' c, session A amd u [SetOptions A (o <| maxit := K |>); Solve A] = Ok ([c], q') /\
    (IterationCount (q_stats q) < K -> c = QP_OPTIMAL /\ same_point q q' /\ IterationCount (q_stats q') = IterationCount (q_stats q)) /\
    (K <= IterationCount (q_stats q) -> c = QP_MAXIT /\ IterationCount (q_stats q') = K).
Proof.
  intros Q E HK. destruct (session_from A ps SF amd u V) as [q0 [B [r [_ [_ HF]]]]].
  destruct (first_solve o Q B r HF) as [j [qa [t [E1 [HA [Hj Ij]]]]]]. rewrite E in E1. injection E1 as Ef <-.
  assert (Q' : quiet_calls A u [SetOptions A (o <| maxit := K |>); Solve A]).
  { destruct Q as [Q|Q]; [left; exact Q|]. apply quiet_same. right. apply (Q o). left. reflexivity. }
  destruct (first_solve _ Q' B r HF) as [j' [q' [t' [E2 [HA' [Hj' Ij']]]]]]. exists q', (Flag (q_stats q')). split; [exact E2|].
  rewrite Ij, Ij'. rewrite (at_st _ _ _ _ HA'). rewrite (at_st _ _ _ _ HA) in Ef.
  destruct Hj as [P1 O1 I1 R1 C1], Hj' as [P2 O2 I2 R2 C2]. cbn [set_o sn_pt sn_o] in *. 
  set (pp0 := sn_pt A (fresh A B r)) in *. change (sigma (o <| maxit := K |>)) with (sigma o) in *. change (maxit (o <| maxit := K |>)) with K in *.
  change (stopsAt A B (o <| maxit := K |>)) with (stopsAt A B o) in *.
  destruct C1 as [[_ [L1 S1]]|[[X _]|[X _]]]; [|rewrite X in Ef; discriminate Ef|rewrite X in Ef; discriminate Ef].
  destruct C2 as [[F2 [L2 S2]]|[[F2 [L2 _]]|[_ [_ X]]]]; [| |lia].
  - assert (j = j') by (apply (first_unique (fun i => stopsAt A B o (fst (path A B pp0 (sigma o) i)))); auto). subst j'. split; [|lia]. intros _. split; [exact F2|]. split; [|reflexivity]. eapply pt_same; [exact HA|exact HA'|congruence].
  - subst j'. destruct (le_lt_dec (Z.to_nat K) j); [|rewrite (R2 j ltac:(lia)) in S1; discriminate S1]. split; [lia|]. intros _. split; [exact F2|lia].
Qed.

(** Looser tolerances and a larger limit: still 0, after no more iterations, and at the point that the stricter run
    passes after that many iterations. *)
Theorem C71_looser o o' q : monotone A -> looser A o o' ->
  quiet_calls A u [SetOptions A o; Solve A] -> quiet_calls A u [SetOptions A o'; Solve A] ->
  session A amd u [SetOptions A o; Solve A] = Ok ([QP_OPTIMAL], q) ->
  exists q' q'' c, session A amd u [SetOptions A o'; Solve A] = Ok ([QP_OPTIMAL], q') /\
    IterationCount (q_stats q') <= IterationCount (q_stats q) /\
    session A amd u [SetOptions A (o <| maxit := IterationCount (q_stats q') |>); Solve A] = Ok ([c], q'') /\
    IterationCount (q_stats q'') = IterationCount (q_stats q') /\ same_point q' q''.
Proof.
  intros HM HL Q Q' E. destruct (session_from A ps SF amd u V) as [q0 [B [r [_ [_ HF]]]]].
  destruct (first_solve o Q B r HF) as [j [qa [t [E1 [HA [Hj Ij]]]]]]. rewrite E in E1. injection E1 as Ef <-.
  destruct (first_solve o' Q' B r HF) as [j' [q' [t' [E2 [HA' [Hj' Ij']]]]]].
  assert (Q'' : quiet_calls A u [SetOptions A (o <| maxit := IterationCount (q_stats q') |>); Solve A]).
  { destruct Q as [Q|Q]; [left; exact Q|]. apply quiet_same. right. apply (Q o). left. reflexivity. }
  destruct (first_solve _ Q'' B r HF) as [j3 [q3 [t3 [E3 [HA3 [Hj3 Ij3]]]]]]. rewrite Ij' in *. rewrite (at_st _ _ _ _ HA) in Ef.
  destruct Hj as [P1 O1 I1 R1 C1], Hj' as [P2 O2 I2 R2 C2], Hj3 as [P3 O3 I3 R3 C3]. cbn [set_o sn_pt sn_o] in *.
  set (pp0 := sn_pt A (fresh A B r)) in *. change (sigma (o <| maxit := Z.of_nat j' |>)) with (sigma o) in *. change (maxit (o <| maxit := Z.of_nat j' |>)) with (Z.of_nat j') in *.
  change (stopsAt A B (o <| maxit := Z.of_nat j' |>)) with (stopsAt A B o) in *. rewrite (lo_sigma _ _ _ HL) in *.
  destruct C1 as [[_ [L1 S1]]|[[X _]|[X _]]]; [|rewrite X in Ef; discriminate Ef|rewrite X in Ef; discriminate Ef].
  assert (G : (j' <= j)%nat).
  { destruct (le_lt_dec j' j); [lia|]. pose proof (stop_looser A B ps SF _ o o' HM HL S1) as X. rewrite (R2 j l) in X. discriminate X. }
  pose proof (lo_max _ _ _ HL) as Hmax.
  assert (F2 : Flag (sn_st A t') = QP_OPTIMAL) by (destruct C2 as [[X _]|[[_ [X _]]|[_ [_ X]]]]; [exact X|lia|lia]).
  exists q', q3, (Flag (q_stats q3)). rewrite (at_st _ _ _ _ HA'), F2 in E2. split; [exact E2|]. rewrite Ij, Ij'. split; [lia|]. split; [exact E3|].
  assert (j3 = j').
  { destruct C3 as [[_ [L3 S3]]|[[_ [L3 _]]|[_ [_ X]]]]; [|lia|lia]. rewrite Nat2Z.id in L3. destruct (Nat.eq_dec j j3) as [->|Hne]; [lia|]. assert (j3 < j)%nat by lia. rewrite (R1 j3) in S3 by lia. discriminate S3. }
  subst j3. split; [exact Ij3|]. eapply pt_same; [exact HA'|exact HA3|congruence].
Qed.
End Props.

(** ** Both arithmetics are monotone *)

Theorem C71_exact_monotone : monotone RA.
Proof.
  split.
  - intros x a b H1 H2. apply Rltb_true in H1. apply Rleb_true in H2. apply Rltb_true. lra.
  - intros a b r a' b' Hr Ha Hb H. cbn in Hr. destruct (Rlt_dec 3 0); [lra|]. injection Hr as <-.
    assert (P : (0 < sqrt 3)%R) by (apply sqrt_lt_R0; lra). cbn in Ha, Hb. destruct (Req_EM_T (sqrt 3) 0); [lra|]. injection Ha as <-. injection Hb as <-.
    apply Rleb_true in H. apply Rleb_true. unfold Rdiv. apply Rmult_le_compat_r; [left; apply Rinv_0_lt_compat; exact P|exact H].
Qed.

Lemma FA_lt_le (x a b : b64) : flt FA x a = true -> fle FA a b = true -> flt FA x b = true.
Proof.
  cbn [flt fle FA]. intros H1 H2.
  destruct (is_finite x && is_finite a && is_finite b) eqn:E.
  - apply andb_prop in E. destruct E as [E E3]. apply andb_prop in E. destruct E as [E1 E2].
    rewrite Bltb_correct in H1 |- * by auto. rewrite Bleb_correct in H2 by auto. revert H1 H2. case Rlt_bool_spec; [|discriminate]. intros H1 _. case Rle_bool_spec; [|discriminate]. intros H2 _. apply Rlt_bool_true. lra.
  - destruct x as [sx|[]| |[] mx ex Hx], a as [sa|[]| |[] ma ea Ha], b as [sb|[]| |[] mb eb Hb]; try discriminate E; try discriminate H1; try discriminate H2; reflexivity.
Qed.

Lemma root3 : exists m e H, @Bsqrt 53 1024 prec64 emax64 mode_NE (b64_ofZ 3) = B754_finite false m e H /\ (1 <= B2R (B754_finite false m e H : b64))%R.
Proof.
  assert (L : Bleb (b64_ofZ 1) (@Bsqrt 53 1024 prec64 emax64 mode_NE (b64_ofZ 3)) = true) by (vm_compute; reflexivity).
  assert (Fi : is_finite (@Bsqrt 53 1024 prec64 emax64 mode_NE (b64_ofZ 3)) = true) by (vm_compute; reflexivity).
  rewrite Bleb_correct in L by (auto; reflexivity). revert L. case Rle_bool_spec; [|discriminate]. intros L _.
  assert (E1 : B2R (b64_ofZ 1) = 1%R) by (exact P14_Round.one_val). rewrite E1 in L.
  destruct (Bsqrt mode_NE (b64_ofZ 3)) as [| | |[] m e H]; try discriminate Fi.
  - cbn in L. lra.
  - exfalso. cbn in L. assert (Defs.F2R (Defs.Float radix2 (Z.neg m) e) < 0)%R by (apply Float_prop.F2R_lt_0; reflexivity). lra.
  - exists m, e, H. split; [reflexivity|exact L].
Qed.

Lemma FA_div_le m e H (a b : b64) : (1 <= B2R (B754_finite false m e H : b64))%R -> fle FA a b = true ->
  fle FA (b64_div a (B754_finite false m e H)) (b64_div b (B754_finite false m e H)) = true.
Proof.
  intros L Hab. set (r := B754_finite false m e H : b64) in *.
  assert (D : forall x : b64, is_finite x = true -> is_finite (b64_div x r) = true /\ B2R (b64_div x r) = Generic_fmt.round radix2 (FLT.FLT_exp (3 - 1024 - 53) 53) ZnearestE (B2R x / B2R r)).
  { intros x Fx. pose proof (Bdiv_correct 53 1024 prec64 emax64 mode_NE x r ltac:(lra)) as C. cbn [round_mode] in C. fold (b64_div x r) in C.
    rewrite Rlt_bool_true in C; [destruct C as [C1 [C2 _]]; split; [rewrite C2; exact Fx|exact C1]|].
    apply Rle_lt_trans with (Rabs (B2R x)); [|apply abs_B2R_lt_emax]. apply Generic_fmt.abs_round_le_generic; [apply FLT.FLT_exp_valid; reflexivity|apply Generic_fmt.valid_rnd_N|apply Generic_fmt.generic_format_abs, generic_format_B2R|].
    unfold Rdiv. rewrite Rabs_mult, (Rabs_pos_eq (/ B2R r)) by (left; apply Rinv_0_lt_compat; lra). rewrite <- (Rmult_1_r (Rabs (B2R x))) at 2. apply Rmult_le_compat_l; [apply Rabs_pos|].
    rewrite <- Rinv_1. apply Rinv_le_contravar; lra. }
  cbn [fle FA] in *. destruct (is_finite a && is_finite b) eqn:E.
  - apply andb_prop in E. destruct E as [E1 E2]. destruct (D a E1) as [Fa Ra], (D b E2) as [Fb Rb]. rewrite Bleb_correct in Hab |- * by auto. rewrite Ra, Rb. apply Rle_bool_true.
    revert Hab. case Rle_bool_spec; [|discriminate]. intros Hab _. apply Generic_fmt.round_le; [apply FLT.FLT_exp_valid; reflexivity|apply Generic_fmt.valid_rnd_N|].
    unfold Rdiv. apply Rmult_le_compat_r; [left; apply Rinv_0_lt_compat; lra|exact Hab].
  - destruct a as [sa|[]| |[] ma ea Ha], b as [sb|[]| |[] mb eb Hb]; try discriminate E; try discriminate Hab; try reflexivity;
      match goal with |- Bleb (b64_div ?x r) (b64_div ?y r) = true =>
        first [destruct (D x eq_refl) as [Fx _]; destruct (b64_div x r) as [|[]| |[]]; try discriminate Fx; reflexivity
              |destruct (D y eq_refl) as [Fx _]; destruct (b64_div y r) as [|[]| |[]]; try discriminate Fx; reflexivity] end.
Qed.

Theorem C71_double_monotone : monotone FA.
Proof.
  split; [exact FA_lt_le|]. intros a b r a' b' Hr Ha Hb Hab. destruct root3 as [m [e [H [E L]]]].
  cbn [fsqrt fofZ FA] in Hr. rewrite E in Hr. injection Hr as <-. cbn [fdiv FA] in Ha, Hb. injection Ha as <-. injection Hb as <-. apply FA_div_le; auto.
Qed.

(** ** Case: min x^2/2, x >= 1 with the default tolerances and with 1/1000. *)
Definition opt71 : settings (car FA) := (default_settings FA) <| reltol := fdec FA 1 1000 |> <| abstol := fdec FA 1 1000 |> <| maxit := 150 |>.

Definition check71 (r1 r2 : res (list Z * qp (car FA))) : bool := match r1, r2 with
  | Ok ([c], q), Ok ([c'], q') => (c =? QP_OPTIMAL) && (c' =? QP_OPTIMAL) && (1 <? IterationCount (q_stats q')) && (IterationCount (q_stats q') <? IterationCount (q_stats q))
  | _, _ => false end.
Lemma check71_ok r1 r2 : check71 r1 r2 = true -> exists q q', r1 = Ok ([QP_OPTIMAL], q) /\ r2 = Ok ([QP_OPTIMAL], q') /\ 1 < IterationCount (q_stats q') < IterationCount (q_stats q).
Proof.
  destruct r1 as [[[|a [|? l]] q]| |]; try (intros H; discriminate H). destruct r2 as [[[|c [|c2 l2]] q']| |]; try (intros H; discriminate H).
  unfold check71. intros H. apply andb_prop in H. destruct H as [H H4]. apply andb_prop in H. destruct H as [H H3]. apply andb_prop in H. destruct H as [H1 H2].
  apply Z.eqb_eq in H1, H2. apply Z.ltb_lt in H3, H4. subst. eauto 6.
Qed.

Theorem C71_case : exists q q', valid_user noamd (small FA) /\ looser FA (default_settings FA) opt71 /\
  quiet_calls FA (small FA) [SetOptions FA (default_settings FA); Solve FA] /\ quiet_calls FA (small FA) [SetOptions FA opt71; Solve FA] /\
  session FA noamd (small FA) [SetOptions FA (default_settings FA); Solve FA] = Ok ([QP_OPTIMAL], q) /\
  session FA noamd (small FA) [SetOptions FA opt71; Solve FA] = Ok ([QP_OPTIMAL], q') /\
  1 < IterationCount (q_stats q') < IterationCount (q_stats q).
Proof.
  assert (C : check71 (session FA noamd (small FA) [SetOptions FA (default_settings FA); Solve FA]) (session FA noamd (small FA) [SetOptions FA opt71; Solve FA]) = true) by (vm_compute; reflexivity).
  destruct (check71_ok _ _ C) as [q [q' [E1 [E2 E3]]]]. exists q, q'. split; [apply small_valid|].
  split; [split; [vm_compute; reflexivity|vm_compute; reflexivity|vm_compute; discriminate|reflexivity]|].
  split; [right; intros o [H|[H|[]]]; [injection H as <-; cbn; lia|discriminate H]|].
  split; [right; intros o [H|[H|[]]]; [injection H as <-; cbn; lia|discriminate H]|].
  split; [exact E1|]. split; [exact E2|exact E3].
Qed.

Print Assumptions C71_determined.
Print Assumptions C71_limit.
Print Assumptions C71_looser.
Print Assumptions C71_exact_monotone.
Print Assumptions C71_double_monotone.
Print Assumptions C71_case.
