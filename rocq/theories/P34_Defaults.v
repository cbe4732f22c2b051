(** Property C74: what a fresh handle holds and what a first solve without setting options guarantees. *)
From Coq Require Import ZArith Reals List Lia Lra Bool.
From RecordUpdate Require Import RecordUpdate.
From Flocq Require Import IEEE754.BinarySingleNaN Core.
From Verif Require Import Res Partial Arith Lists MSparse Csc SemVec MLdl LdlSym LdlNum LdlR LdlFun MSolver VecOps
  Iter SafeInst Setup Session Spec SpecLink QpSpec NewtonR Api Demo P4_Always PointR P5_Session P6_Codes StepSpec StepFacts StepUniq StepLink P7_Step
  Round RoundLdl P31_Options P33_Text.
Import ListNotations.
Open Scope Z_scope.
Open Scope res_scope.

Local Ltac pok := apply pw_ok.
Local Ltac pstep :=
  match goal with
  | |- pw (bind _ _) _ => apply pw_skip; let x := fresh "x" in let E := fresh "E" in intros x E; cbv zeta beta
  | |- pw (let '(_, _) := ?x in _) _ => destruct x
  | |- pw (if ?b then _ else _) _ => destruct b
  end.

Section Fresh.
Variable A : Arith.
Notation F := (car A).

Lemma kkt_initialize_keeps (q : qp F) : pw (kkt_initialize A q) (fun r => fst r = true /\ q_options (snd r) = q_options q /\ q_stats (snd r) = q_stats q).
Proof.
  unfold kkt_initialize. cbv zeta. pstep. pstep. pstep. apply pw_bind. eapply pw_mono; [apply ldlinitialsolve_always|].
  intros [[ok k] delta] [H1 H2]. cbn [fst snd] in *. subst ok. pstep. pstep. pstep. pstep. pstep. destruct x6 as [mn mx].
  pstep. pstep. pok. cbn [fst snd]. auto.
Qed.

(** Options and statistics, field by field. *)
Record fresh_values (q : qp F) : Prop := mkFresh {
  fv_maxit : maxit (q_options q) = 100;
  fv_reltol : reltol (q_options q) = fdec A 1 1000000;
  fv_abstol : abstol (q_options q) = fdec A 1 1000000;
  fv_sigma : sigma (q_options q) = fofZ A 100;
  fv_verbose : verbose (q_options q) = 0;
  fv_count : IterationCount (q_stats q) = 0;
  fv_alpha : alpha_p (q_stats q) = fofZ A 0 /\ alpha_d (q_stats q) = fofZ A 0;
  fv_flag : Flag (q_stats q) = 3;
  fv_unset : fval (q_stats q) = None /\ n_rx (q_stats q) = None /\ n_ry (q_stats q) = None /\ n_rz (q_stats q) = None /\ n_mu (q_stats q) = None
}.

Lemma setup_core_fresh amd n m p_arg P G AM c h b sd Permut :
  pw (setup_core A amd n m p_arg P G AM c h b sd Permut) fresh_values.
Proof.
  unfold setup_core. cbv zeta. pstep. pstep.
  destruct AM as [M|]; (pstep; apply pw_skip; intros [Pm r] Er; apply pw_bind; eapply pw_mono; [apply kkt_initialize_keeps|];
    intros [ok q] [Hok [Ho Hs]]; cbn [fst snd] in *; subst ok; pok; split; rewrite ?Ho, ?Hs; repeat split).
Qed.

(** C74: every handle that either setup returns, in any arithmetic. *)
Theorem C74_fresh q : obtained A q -> fresh_values q.
Proof.
  intros [[amd [u E]]|[amd [n [m [p [Ppr [Apr [Gpr [c [h [b [Permut [ordering E]]]]]]]]]]]]].
  - assert (W : pw (setup A amd u) fresh_values); [|apply (W q E)]. unfold setup, QP_SETUP. apply pw_skip. intros AM _. pstep. pstep. apply setup_core_fresh.
  - assert (W : pw (QP_SETUP_dense A amd n m p Ppr Apr Gpr c h b Permut ordering) fresh_values); [|apply (W q E)].
    unfold QP_SETUP_dense. apply pw_skip. intros AM _. pstep. pstep. apply setup_core_fresh.
Qed.
End Fresh.

(** The tolerances in binary64: 10^-6 rounded to nearest; the centering parameter is exactly 100. *)
Theorem C74_binary64 q : obtained FA q ->
  B2R (reltol (q_options q)) = round radix2 (FLT_exp (-1074) 53) ZnearestE (1 / 1000000) /\
  B2R (abstol (q_options q)) = round radix2 (FLT_exp (-1074) 53) ZnearestE (1 / 1000000) /\
  B2R (sigma (q_options q)) = 100%R.
Proof.
  intros HO. destruct (C74_fresh FA q HO) as [_ -> -> -> _ _ _ _ _].
  assert (E : B2R (fdec FA 1 1000000) = round radix2 (FLT_exp (-1074) 53) ZnearestE (1 / 1000000)).
  { cbn [fdec FA]. destruct (ofZ_val 1 ltac:(lia)) as [F1 V1]. destruct (ofZ_val 1000000 ltac:(lia)) as [F2 V2].
    pose proof (@Bdiv_correct 53 1024 prec64 emax64 mode_NE (b64_ofZ 1) (b64_ofZ 1000000) ltac:(rewrite V2; lra)) as H.
    rewrite V1, V2 in H. rewrite Rlt_bool_true in H; [exact (proj1 H)|].
    apply Rlt_trans with 1%R; [|apply (bpow_lt radix2 0 1024); lia].
    destruct (rnd_any (1 / 1000000)) as [e [n [He [Hn En]]]]. change (Rabs (rnd (1 / 1000000)) < 1)%R. rewrite En.
    apply Rabs_le_inv in He, Hn. pose proof uu_le. pose proof eta_le. apply Rabs_lt. lra. }
  split; [exact E|]. split; [exact E|]. apply (ofZ_val 100). lia.
Qed.

Lemma default_ends A B s q : At A B q (solveF A B s) -> IterationCount (sn_st A s) = 0 -> Flag (sn_st A s) = QP_FATAL -> maxit (sn_o A s) = 100 ->
  Flag (q_stats q) = 0 /\ 0 <= IterationCount (q_stats q) < 100 /\ stopF A B (sn_pt A (solveF A B s)) (sn_o A s) = true \/
  Flag (q_stats q) = 2 /\ IterationCount (q_stats q) = 100.
Proof.
  intros HA H1 H2 H3. destruct (first_ends A B s H1 H2) as [j [P1 _ I1 _ C]]. rewrite (at_st _ _ _ _ HA). rewrite H3 in C.
  assert (E100 : Z.of_nat (Z.to_nat 100) = 100) by (apply Z2Nat.id; lia). set (K := Z.to_nat 100) in *. clearbody K.
  destruct C as [[-> [L S]]|[[-> [L _]]|[_ [_ L]]]]; [left|right|lia].
  - split; [reflexivity|]. split; [lia|]. rewrite P1. exact S.
  - split; [reflexivity|]. subst j. lia.
Qed.

Lemma default_session A ps amd u B s :
  (forall l, quiet_calls A u l -> exists q, session A amd u l = Ok (fst (callsF A B s l), q) /\ At A B q (snd (callsF A B s l)) /\
    interior A B ps (sn_pt A (snd (callsF A B s l)))) ->
  exists q, session A amd u [Solve A] = Ok ([Flag (q_stats q)], q) /\ At A B q (solveF A B s).
Proof.
  intros HF. destruct (HF [Solve A]) as [q [E [HA _]]]; [right; intros o [X|[]]; discriminate X|]. cbn [callsF fst snd] in E, HA.
  exists q. rewrite <- (at_st _ _ _ _ HA) in E. auto.
Qed.

(** C74: a first solve without setting options, in any arithmetic: at most 100 passes, code 0 or 2. *)
Theorem C74_first_solve A ps amd u : Safe A ps -> valid_user amd u ->
  exists c q, session A amd u [Solve A] = Ok ([c], q) /\
    (c = 0 /\ 0 <= IterationCount (q_stats q) < 100 \/ c = 2 /\ IterationCount (q_stats q) = 100).
Proof.
  intros SF V. destruct (session_from A ps SF amd u V) as [q0 [B [r [_ [_ HF]]]]].
  destruct (default_session A ps amd u B _ HF) as [q [E HA]]. exists (Flag (q_stats q)), q. split; [exact E|].
  destruct (default_ends A B (fresh A B r) q HA eq_refl eq_refl eq_refl) as [[H1 [H2 _]]|H]; auto.
Qed.

(** C74: the same in exact arithmetic; a returned 0 means residuals below 10^-6/sqrt 3 and a gap below 10^-6. *)
Theorem C74_first_solve_exact amd u : valid_user amd u ->
  exists c q, session RA amd u [Solve RA] = Ok ([c], q) /\
    (c = 0 /\ 0 <= IterationCount (q_stats q) < 100 /\ passes (user_qp u) (1 / 1000000) (1 / 1000000) (hx q) (hy q) (hz q) (hs q) \/
     c = 2 /\ IterationCount (q_stats q) = 100).
Proof.
  intros V. destruct (session_from RA Rpos Safe_R amd u V) as [q0 [B [r [_ [HS HF]]]]].
  destruct (default_session RA Rpos amd u B _ HF) as [q [E HA]]. exists (Flag (q_stats q)), q. split; [exact E|].
  destruct (default_ends RA B (fresh RA B r) q HA eq_refl eq_refl eq_refl) as [[H1 [H2 H3]]|H]; [left|right; exact H]. split; [exact H1|]. split; [exact H2|].
  exact (proj2 (passes_handle amd u B q0 r V HS q _ (default_settings RA) (Pt_is _ _ _ (at_pt _ _ _ _ HA))) H3).
Qed.

(** The hypotheses are met by the problem of the repository's demo. *)
Lemma C74_case amd : valid_user amd (demo RA) /\ exists q, setup RA amd (demo RA) = Ok q /\ obtained RA q.
Proof.
  split; [apply demo_valid|]. destruct (session_from RA Rpos Safe_R amd (demo RA) (demo_valid RA amd)) as [q0 [B [r [E _]]]].
  exists q0. split; [exact E|]. left. exists amd, (demo RA). exact E.
Qed.

Print Assumptions C74_fresh.
Print Assumptions C74_binary64.
Print Assumptions C74_first_solve.
Print Assumptions C74_first_solve_exact.
Print Assumptions C74_case.
