(** C81: solving again after the test was passed does nothing. *)
From Coq Require Import ZArith Reals List Lia Lra Bool.
From RecordUpdate Require Import RecordUpdate.
From Verif Require Import Res Arith Lists MSparse Csc SemVec MSolver VecOps Iter SafeInst Setup Session Spec SpecLink QpSpec NewtonR Api Demo P2_Kkt PointR P4_Always P5_Session P6_Codes
  StepSpec StepFacts StepLink P7_Step QpFacts P8_Problem P8_Cases P14_Round P31_Options P40_Exact.
Import ListNotations.
Open Scope Z_scope.

Lemma quiet_repeat A u l k : quiet_calls A u l -> quiet_calls A u (l ++ repeat (Solve A) k).
Proof.
  intros [H|H]; [left; exact H|right]. intros o Ho. apply in_app_or in Ho. destruct Ho as [Ho|Ho]; [auto|]. apply repeat_spec in Ho. discriminate Ho.
Qed.

Section Fixed.
Variable A : Arith.
Variable B : prob (car A).

(** A solve whose starting point passes the test. *)
Lemma solve_stopped s : stops A B s = true -> 1 <= maxit (sn_o A s) -> solveF A B s = finalF A (stop_snap A B s).
Proof.
  intros Hs Hm. destruct (solveF_any A B s) as [[i [_ [H [E _]]]]|[H _]].
  - destruct i as [|i]; [exact E|]. specialize (H O ltac:(lia)). cbn [walk] in H. congruence.
  - specialize (H O ltac:(lia)). cbn [walk] in H. congruence.
Qed.

Lemma solve_fixed w s : s = finalF A (stop_snap A B w) -> stops A B w = true -> 1 <= maxit (sn_o A w) -> solveF A B s = s.
Proof.
  intros -> Hs Hm. assert (P : sn_pt A (finalF A (stop_snap A B w)) = sn_pt A w) by (unfold finalF; destruct (_ =? _); reflexivity).
  assert (O : sn_o A (finalF A (stop_snap A B w)) = sn_o A w) by (unfold finalF; destruct (_ =? _); reflexivity).
  rewrite solve_stopped; [|unfold stops in *; rewrite P, O; exact Hs|rewrite O; exact Hm].
  unfold finalF at 2 3. destruct (IterationCount (sn_st A (stop_snap A B w)) =? maxit (sn_o A (stop_snap A B w))) eqn:E.
  - unfold finalF, stop_snap, resid_stats in *. cbn [sn_st sn_o sn_pt] in *. cbn in *. rewrite E. destruct (pp B =? 0); reflexivity.
  - unfold finalF, stop_snap, resid_stats in *. cbn [sn_st sn_o sn_pt] in *. cbn in *. rewrite E. destruct (pp B =? 0); reflexivity.
Qed.
End Fixed.

Section Props.
Variable A : Arith.
Variable ps : car A -> Prop.
Hypothesis SF : Safe A ps.
Variables (amd : amd_t) (u : user (car A)).
Hypothesis V : valid_user amd u.

(** Whenever the point in the handle passes the test with the options in the handle, a solve makes no iteration: the point and
    the options stay, the statistics are those of the point, and the code is 0 unless the running count equals the limit. *)
Theorem C81_immediate l codes q : quiet_calls A u (l ++ [Solve A]) -> session A amd u l = Ok (codes, q) ->
  test_at A (q_options q) q true -> 1 <= maxit (q_options q) ->
  exists q', session A amd u (l ++ [Solve A]) = Ok (codes ++ [if IterationCount (q_stats q) =? maxit (q_options q) then 2 else 0], q') /\
    same_point q q' /\ q_options q' = q_options q /\ IterationCount (q_stats q') = IterationCount (q_stats q) /\
    alpha_p (q_stats q') = alpha_p (q_stats q) /\ alpha_d (q_stats q') = alpha_d (q_stats q) /\ reports A (q_stats q') q'.
Proof.
  intros Hq E HT Hm. destruct (session_from A ps SF amd u V) as [qs [B [r [_ [_ HF]]]]].
  destruct (HF _ (quiet_prefix _ _ _ _ Hq)) as [q1 [E1 [A1 I1]]]. rewrite E in E1. injection E1 as Ec <-.
  destruct (HF _ Hq) as [q' [E2 [A2 I2]]]. rewrite callsF_app in E2, A2, I2. cbn [callsF fst snd] in E2, A2, I2. rewrite <- Ec in E2.
  set (s := snd (callsF A B (fresh A B r) l)) in *.
  assert (St : stops A B s = true).
  { apply (test_at_iff A ps SF B q s _ A1 I1) in HT. rewrite (at_o _ _ _ _ A1) in HT. exact HT. }
  assert (Hm' : 1 <= maxit (sn_o A s)) by (rewrite <- (at_o _ _ _ _ A1); exact Hm).
  pose proof (solve_stopped A B s St Hm') as Es. destruct (finalF_cases A (stop_snap A B s)) as [Ef Ep].
  exists q'. rewrite (at_st _ _ _ _ A1), (at_o _ _ _ _ A1), (at_st _ _ _ _ A2), (at_o _ _ _ _ A2).
  split; [|split; [|split; [|split; [|split; [|split]]]]].
  - rewrite E2, Es. unfold finalF, stop_snap, resid_stats. cbn [sn_st sn_o sn_pt]. cbn. destruct (_ =? _); reflexivity.
  - eapply pt_same; [exact A1|exact A2|]. rewrite Es. exact Ep.
  - rewrite Es. unfold finalF. destruct (_ =? _); reflexivity.
  - rewrite Es. unfold finalF. destruct (_ =? _); reflexivity.
  - rewrite Es. unfold finalF. destruct (_ =? _); reflexivity.
  - rewrite Es. unfold finalF. destruct (_ =? _); reflexivity.
  - rewrite <- (at_st _ _ _ _ A2). eapply (stop_reports A ps); eauto. exists s. rewrite Es. split; [exact Ep|exact Ef].
Qed.

(** After a solve that stopped before making [maxit] iterations, any number of further solves return the same code and leave
    the point, the options and the statistics as they are. *)
Theorem C81_again l codes q0 c q k : quiet_calls A u (l ++ [Solve A]) -> session A amd u l = Ok (codes, q0) ->
  session A amd u (l ++ [Solve A]) = Ok (codes ++ [c], q) ->
  IterationCount (q_stats q) < IterationCount (q_stats q0) + maxit (q_options q0) ->
  exists q', session A amd u ((l ++ [Solve A]) ++ repeat (Solve A) k) = Ok ((codes ++ [c]) ++ repeat c k, q') /\
    same_point q q' /\ q_options q' = q_options q /\ q_stats q' = q_stats q.
Proof.
  intros Hq E0 E HI. destruct (session_from A ps SF amd u V) as [qs [B [r [_ [_ HF]]]]].
  destruct (HF _ (quiet_prefix _ _ _ _ Hq)) as [qa [Ea [Aa _]]]. rewrite E0 in Ea. injection Ea as Ec <-.
  destruct (HF _ Hq) as [qb [Eb [Ab _]]]. rewrite E in Eb. injection Eb as Ecs <-.
  destruct (HF _ (quiet_repeat A u _ k Hq)) as [q' [E' [A' _]]]. rewrite callsF_app in E', A'. cbn [fst snd] in E', A'.
  set (r1 := callsF A B (fresh A B r) (l ++ [Solve A])) in *.
  assert (S1 : snd r1 = solveF A B (snd (callsF A B (fresh A B r) l))) by (unfold r1; rewrite callsF_app; reflexivity).
  set (s := snd (callsF A B (fresh A B r) l)) in *.
  assert (Fx : solveF A B (snd r1) = snd r1 /\ Flag (sn_st A (snd r1)) = c).
  { split.
    - rewrite (at_st _ _ _ _ Ab), (at_st _ _ _ _ Aa), (at_o _ _ _ _ Aa), S1 in HI.
      destruct (solveF_any A B s) as [[i [Hs [_ [Es [_ [Hi _]]]]]]|[_ [_ [Hk _]]]]; [|lia].
      rewrite S1. apply (solve_fixed A B (walk A B i s)); [exact Es|exact Hs|]. rewrite walk_maxit. lia.
    - pose proof (callsF_flag A B (l ++ [Solve A]) (fresh A B r)) as F. fold r1 in F. rewrite F, <- Ecs. apply last_last. }
  destruct Fx as [Fx Fc].
  assert (Rp : forall k, callsF A B (snd r1) (repeat (Solve A) k) = (repeat c k, snd r1)).
  { clear - Fx Fc. induction k as [|k IH]; [reflexivity|]. cbn [repeat callsF]. rewrite Fx, IH, Fc. reflexivity. }
  rewrite Rp in E', A'. cbn [fst snd] in E', A'. rewrite <- Ecs in E'. exists q'. split; [exact E'|].
  split; [eapply pt_same; [exact Ab|exact A'|reflexivity]|].
  rewrite (at_o _ _ _ _ Ab), (at_o _ _ _ _ A'), (at_st _ _ _ _ Ab), (at_st _ _ _ _ A'). auto.
Qed.

(** In particular after a code 0 that is not left over. *)
Theorem C81_after_zero l codes q k : quiet_calls A u (l ++ [Solve A]) -> last codes 3 <> 0 ->
  session A amd u (l ++ [Solve A]) = Ok (codes ++ [0], q) ->
  exists q', session A amd u ((l ++ [Solve A]) ++ repeat (Solve A) k) = Ok ((codes ++ [0]) ++ repeat 0 k, q') /\
    same_point q q' /\ q_options q' = q_options q /\ q_stats q' = q_stats q.
Proof.
  intros Hq Hn E. destruct (C20_any_solve A ps amd u l SF V Hq) as [cs [q0 [c [qb [E1 [E2 [Hf [_ H]]]]]]]].
  rewrite E in E2. injection E2 as Ec <-. apply app_inj_tail in Ec. destruct Ec as [<- <-].
  apply (C81_again l codes q0 0 q k Hq E1 E). destruct H as [[_ [_ [H _]]]|[_ Hc]]; [lia|].
  exfalso. rewrite Hf in Hc. destruct (_ =? _) in Hc; [discriminate Hc|congruence].
Qed.
End Props.
Print Assumptions C81_immediate.
Print Assumptions C81_again.
Print Assumptions C81_after_zero.

(** Case: minimise x^2/2 subject to x >= 1 in binary64. *)
Lemma C81_case : exists q, valid_user noamd (small FA) /\ quiet_calls FA (small FA) ([SetOptions FA opt54] ++ [Solve FA]) /\
  session FA noamd (small FA) ([SetOptions FA opt54] ++ [Solve FA]) = Ok ([] ++ [0], q) /\
  0 < IterationCount (q_stats q) < maxit (q_options q) /\ test_at FA (q_options q) q true /\
  quiet_calls FA (small FA) (([SetOptions FA opt54] ++ [Solve FA]) ++ [Solve FA]).
Proof.
  assert (C : match session FA noamd (small FA) ([SetOptions FA opt54] ++ [Solve FA]) with
    | Ok ([c], q) => (c =? 0) && (0 <? IterationCount (q_stats q)) && (IterationCount (q_stats q) <? maxit (q_options q)) &&
        match computeresiduals FA q with Ok q2 => match stop_test FA (q2 <| q_options := q_options q |>) with Ok b => b | _ => false end | _ => false end
    | _ => false end = true) by (vm_compute; reflexivity).
  destruct (session FA noamd (small FA) ([SetOptions FA opt54] ++ [Solve FA])) as [[[|c [|]] q]| |]; try discriminate C.
  apply andb_true_iff in C. destruct C as [C C4]. apply andb_true_iff in C. destruct C as [C C3]. apply andb_true_iff in C. destruct C as [C1 C2].
  apply Z.eqb_eq in C1. apply Z.ltb_lt in C2, C3. subst c.
  destruct (computeresiduals FA q) as [q2| |] eqn:E2; try discriminate C4. destruct (stop_test FA (q2 <| q_options := q_options q |>)) as [b| |] eqn:E3; try discriminate C4. subst b.
  exists q. split; [apply small_valid|]. split; [right; intros o [H|[H|[]]]; [injection H as <-; cbn; lia|discriminate H]|].
  split; [reflexivity|]. split; [lia|]. split; [exists q2; split; [exact E2|exact E3]|].
  right; intros o [H|[H|[H|[]]]]; [injection H as <-; cbn; lia|discriminate H|discriminate H].
Qed.
