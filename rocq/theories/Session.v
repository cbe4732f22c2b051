(** A whole use of the library: one setup, then any sequence of option changes and solves. *)
From Coq Require Import ZArith Reals List Lia Lra Bool.
From RecordUpdate Require Import RecordUpdate.
From Verif Require Import Res Arith Lists MSparse Csc SemVec MLdl MSolver LdlSym LdlNum LdlR LdlFun VecOps Iter SafeInst Setup.
Import ListNotations.
Open Scope Z_scope.
Open Scope res_scope.

Section Session.
Variable A : Arith.
Notation F := (car A).

(** What a caller does with a handle between setup and cleanup: assign to myQP->options, or call QP_SOLVE. *)
Inductive call : Type :=
| SetOptions (o : settings F)
| Solve.

(** The exit codes of the solves, in order, and the final handle. *)
Fixpoint run_calls (q : qp F) (l : list call) : res (list Z * qp F) :=
  match l with
  | [] => Ok ([], q)
  | SetOptions o :: l => run_calls (q <| q_options := o |>) l
  | Solve :: l =>
      '(code, q) <- QP_SOLVE A q ;;
      '(codes, q) <- run_calls q l ;;
      Ok (code :: codes, q)
  end.

Section B.
Variable B : prob F.

Definition set_o (s : snap A) (o : settings F) : snap A := mkSnap A (sn_pt A s) o (sn_st A s).

Fixpoint callsF (s : snap A) (l : list call) : list Z * snap A :=
  match l with
  | [] => ([], s)
  | SetOptions o :: l => callsF (set_o s o) l
  | Solve :: l => let s' := solveF A B s in
                  let r := callsF s' l in (Flag (sn_st A s') :: fst r, snd r)
  end.

(** Calls never ask for progress output without equality constraints. *)
Definition quiet (l : list call) : Prop :=
  pp B <> 0 \/ forall o, In (SetOptions o) l -> verbose o <= 0.

Lemma finalF_flag s : Flag (sn_st A s) <> QP_KKTFAIL -> Flag (sn_st A (finalF A s)) <> QP_KKTFAIL.
Proof. intros H. unfold finalF. destruct (_ =? _); cbn; auto. discriminate. Qed.

Lemma iterF_flag s : Flag (sn_st A (fst (iterF A B s))) = Flag (sn_st A s) \/
  (Flag (sn_st A (fst (iterF A B s))) = QP_OPTIMAL /\ snd (iterF A B s) = true).
Proof. unfold iterF. destruct (stopF A B _ _); cbn; auto. Qed.

Lemma runF_flag k s : Flag (sn_st A s) <> QP_KKTFAIL -> Flag (sn_st A (fst (runF A B k s))) <> QP_KKTFAIL.
Proof.
  intros H. induction k; cbn [runF]; auto. destruct (snd (runF A B k s)); auto.
  destruct (iterF_flag (fst (runF A B k s))) as [E|[E _]]; rewrite E; auto. discriminate.
Qed.

Lemma solveF_flag s : Flag (sn_st A s) <> QP_KKTFAIL -> Flag (sn_st A (solveF A B s)) <> QP_KKTFAIL.
Proof. intros H. apply finalF_flag, runF_flag; auto. Qed.

Lemma finalF_pt s : sn_pt A (finalF A s) = sn_pt A s.
Proof. unfold finalF. destruct (_ =? _); reflexivity. Qed.

Lemma finalF_o s : sn_o A (finalF A s) = sn_o A s.
Proof. unfold finalF. destruct (_ =? _); reflexivity. Qed.

Lemma solveF_interior ps s : Safe A ps -> interior A B ps (sn_pt A s) -> interior A B ps (sn_pt A (solveF A B s)).
Proof. intros SF H. unfold solveF. rewrite finalF_pt. apply runF_interior; auto. Qed.

Lemma iterF_verbose s : verbose (sn_o A (fst (iterF A B s))) = verbose (sn_o A s).
Proof. unfold iterF. destruct (stopF A B _ _); reflexivity. Qed.

Lemma solveF_verbose s : verbose (sn_o A (solveF A B s)) = verbose (sn_o A s).
Proof.
  unfold solveF. rewrite finalF_o. generalize (Z.to_nat (maxit (sn_o A s))). intros k.
  induction k; cbn [runF]; auto. destruct (snd (runF A B k s)); auto. rewrite iterF_verbose. auto.
Qed.

Definition loud_ok (s : snap A) : Prop := pp B <> 0 \/ verbose (sn_o A s) <= 0.

Lemma loud_printable s : loud_ok s -> printableS A B s.
Proof. unfold loud_ok, printableS. tauto. Qed.

Lemma At_set_o q s o : At A B q s -> At A B (q <| q_options := o |>) (set_o s o).
Proof.
  intros [HB HP Ho Hst]. split; cbn; auto.
  - destruct HB. split; assumption.
  - destruct HP. split; assumption.
Qed.

Theorem run_calls_ok ps l : forall q s, Safe A ps -> At A B q s -> interior A B ps (sn_pt A s) ->
  Flag (sn_st A s) <> QP_KKTFAIL -> loud_ok s -> quiet l ->
  wp (run_calls q l) (fun r => fst r = fst (callsF s l) /\ At A B (snd r) (snd (callsF s l)) /\
     interior A B ps (sn_pt A (snd (callsF s l))) /\ frame A q (snd r)).
Proof.
  induction l as [|[o|] l IH]; intros q s SF HA Hi Hf Hl Hq; cbn [run_calls callsF].
  - wok. cbn. split; auto. split; auto. split; auto. apply frame_refl.
  - eapply wp_mono; [apply (IH _ (set_o s o)); auto|].
    + apply At_set_o. auto.
    + destruct Hq as [Hq|Hq]; [left; auto|]. right. cbn. apply Hq. left. reflexivity.
    + destruct Hq as [Hq|Hq]; [left; auto|]. right. intros o' Ho'. apply Hq. right. auto.
    + intros [codes q2] [H1 [H2 [H3 H4]]]. cbn [fst snd] in *. split; auto. split; auto. split; auto.
      destruct H4; split; assumption.
  - wb. eapply wp_mono; [apply (QP_SOLVE_ok A B ps q s); auto; apply loud_printable; auto|].
    intros [code q1] [H1 [H2 H3]]. cbn [fst snd] in *. wb.
    eapply wp_mono; [apply (IH q1 (solveF A B s)); auto|].
    + apply solveF_interior; auto.
    + apply solveF_flag; auto.
    + destruct Hl as [Hl|Hl]; [left; auto|right; rewrite solveF_verbose; auto].
    + destruct Hq as [Hq|Hq]; [left; auto|]. right. intros o' Ho'. apply Hq. right. auto.
    + intros [codes q2] [G1 [G2 [G3 G4]]]. cbn [fst snd] in *. wok. cbn [fst snd].
      split; [rewrite G1, H2; reflexivity|]. split; auto. split; auto. eapply frame_trans; eauto.
Qed.

End B.

(** ** The iterations of one solve *)

Section Solve.
Variable B : prob F.

(** Points visited: [iterates k] is the point after k steps, ignoring the stopping test. *)
Fixpoint walk (k : nat) (s : snap A) : snap A :=
  match k with
  | O => s
  | S k => let t := walk k s in
           mkSnap A (nextF A B (sn_pt A t) (sigma (sn_o A t)))
             ((sn_o A t) <| sigma := sigF A B (sn_pt A t) (sigma (sn_o A t)) |>)
             (step_stats A B (sn_pt A t) (sigma (sn_o A t)) (sn_st A t))
  end.

Definition stops (s : snap A) : bool := stopF A B (sn_pt A s) (sn_o A s).

Definition stop_snap (s : snap A) : snap A :=
  mkSnap A (sn_pt A s) (sn_o A s) ((resid_stats A B (sn_pt A s) (sn_st A s)) <| Flag := QP_OPTIMAL |>).

(** After k passes either no pass stopped and the state is [walk k], or pass j < k stopped. *)
Lemma runF_cases k s :
  (runF A B k s = (walk k s, false) /\ forall j, (j < k)%nat -> stops (walk j s) = false) \/
  (exists j, (j < k)%nat /\ stops (walk j s) = true /\ (forall i, (i < j)%nat -> stops (walk i s) = false) /\
     runF A B k s = (stop_snap (walk j s), true)).
Proof.
  induction k as [|k IH].
  - left. split; auto. intros j Hj. lia.
  - cbn [runF]. destruct IH as [[E H]|[j [Hj [H1 [H2 E]]]]]; rewrite E; cbn [fst snd].
    + unfold iterF. fold (stops (walk k s)). destruct (stops (walk k s)) eqn:Es.
      * right. exists k. split; [lia|]. split; [auto|]. split; auto.
      * left. split; [reflexivity|]. intros j Hj. destruct (Nat.eq_dec j k) as [->|]; auto. apply H. lia.
    + right. exists j. split; [lia|]. auto.
Qed.

Lemma walk_iter k s : IterationCount (sn_st A (walk k s)) = IterationCount (sn_st A s) + Z.of_nat k.
Proof. induction k; cbn [walk]; [lia|]. cbn [sn_st step_stats]. cbn. rewrite IHk. lia. Qed.

Lemma walk_flag k s : Flag (sn_st A (walk k s)) = Flag (sn_st A s).
Proof. induction k; cbn [walk]; auto. Qed.

Lemma walk_maxit k s : maxit (sn_o A (walk k s)) = maxit (sn_o A s).
Proof. induction k; cbn [walk]; auto. Qed.

Lemma walk_abstol k s : abstol (sn_o A (walk k s)) = abstol (sn_o A s).
Proof. induction k; cbn [walk]; auto. Qed.

Lemma walk_reltol k s : reltol (sn_o A (walk k s)) = reltol (sn_o A s).
Proof. induction k; cbn [walk]; auto. Qed.

Lemma walk_verbose k s : verbose (sn_o A (walk k s)) = verbose (sn_o A s).
Proof. induction k; cbn [walk]; auto. Qed.

Lemma walk_interior ps k s : Safe A ps -> interior A B ps (sn_pt A s) -> interior A B ps (sn_pt A (walk k s)).
Proof. intros SF H. induction k; cbn [walk]; auto. cbn [sn_pt]. apply interior_next; auto. Qed.

(** Fresh handle: the counter starts at 0. *)
Lemma solveF_fresh s : IterationCount (sn_st A s) = 0 ->
  (0 <= maxit (sn_o A s) /\ (forall j, Z.of_nat j < maxit (sn_o A s) -> stops (walk j s) = false) /\
     solveF A B s = mkSnap A (sn_pt A (walk (Z.to_nat (maxit (sn_o A s))) s)) (sn_o A (walk (Z.to_nat (maxit (sn_o A s))) s))
       ((sn_st A (walk (Z.to_nat (maxit (sn_o A s))) s)) <| Flag := QP_MAXIT |>)) \/
  (exists j, Z.of_nat j < maxit (sn_o A s) /\ stops (walk j s) = true /\
     (forall i, (i < j)%nat -> stops (walk i s) = false) /\ solveF A B s = stop_snap (walk j s)) \/
  (maxit (sn_o A s) < 0 /\ solveF A B s = s).
Proof.
  intros H0. unfold solveF. destruct (Z.lt_ge_cases (maxit (sn_o A s)) 0) as [Hm|Hm].
  - right. right. split; auto. replace (Z.to_nat (maxit (sn_o A s))) with O by lia. cbn [runF fst].
    unfold finalF. rewrite H0. destruct (Z.eqb_spec 0 (maxit (sn_o A s))); [lia|]. reflexivity.
  - destruct (runF_cases (Z.to_nat (maxit (sn_o A s))) s) as [[E H]|[j [Hj [H1 [H2 E]]]]]; rewrite E; cbn [fst].
    + left. split; auto. split; [intros j Hj; apply H; lia|].
      unfold finalF. rewrite walk_iter, walk_maxit, H0.
      destruct (Z.eqb_spec (0 + Z.of_nat (Z.to_nat (maxit (sn_o A s)))) (maxit (sn_o A s))); [reflexivity|lia].
    + right. left. exists j. split; [lia|]. split; auto. split; auto.
      unfold finalF. cbn [stop_snap sn_st sn_o].
      match goal with |- context[?a =? ?b] => replace a with (Z.of_nat j) end.
      * rewrite walk_maxit. destruct (Z.eqb_spec (Z.of_nat j) (maxit (sn_o A s))); [lia|]. reflexivity.
      * cbn. rewrite walk_iter, H0. lia.
Qed.

End Solve.
End Session.
