(** Property C73: what a solve prints. *)
From Coq Require Import ZArith Reals List Lia Lra Bool.
From RecordUpdate Require Import RecordUpdate.
From Verif Require Import Res Partial Arith Lists MSparse Csc SemVec MLdl LdlSym LdlNum LdlR LdlFun MSolver VecOps
  Iter SafeInst Setup Session Spec SpecLink QpSpec NewtonR Api Demo P4_Always PointR P5_Session P6_Codes StepSpec StepFacts StepUniq StepLink P7_Step MPrint P21_Single.
Import ListNotations.
Open Scope Z_scope.
Open Scope res_scope.

(** ** Printing changes nothing *)

Definition forget {T L : Type} (r : res (T * L)) : res T := x <- r ;; Ok (fst x).

Lemma forN_forget {S L : Type} k : forall i (b : Z -> S -> res S) (b' : Z -> S * L -> res (S * L)) s,
  (forall i s, forget (b' i s) = b i (fst s)) -> forget (forN k i b' s) = forN k i b (fst s).
Proof.
  induction k as [|k IH]; intros i b b' s H; cbn [forN]; [reflexivity|]. rewrite <- (H i s). unfold forget at 1 2.
  destruct (b' i s) as [s'| |]; cbn [bind]; auto. apply (IH (i + 1) b b'); auto.
Qed.

Section Text.
Variable A : Arith.
Notation F := (car A).

Lemma progress_forget q : (l <- progress A q ;; Ok tt) = print_line A q.
Proof.
  unfold progress, print_line, use. destruct (0 <? verbose (q_options q)); [|reflexivity].
  destruct (fval (q_stats q)), (n_rx (q_stats q)), (n_ry (q_stats q)), (n_rz (q_stats q)), (n_mu (q_stats q)); reflexivity.
Qed.

(** The pass up to the progress line, and the rest. *)
Definition head (q : qp F) : res (qp F) :=
  q <- computeresiduals A q ;;
  '(fv, temp) <- obj_value A (q_P q) (q_c q) (q_x q) (q_temp q) ;;
  Ok (q <| q_temp := temp |> <| q_stats := (q_stats q) <| fval := Some fv |> |>).
Definition tail (q : qp F) : res (qp F * bool) :=
  stop <- stop_test A q ;;
  if stop : bool then Ok (q <| q_stats := (q_stats q) <| Flag := QP_OPTIMAL |> |>, true)
  else
    lambda <- formlambda A (q_lambda q) (q_s q) (q_z q) (q_m q) ;;
    ip <- innerproduct A lambda lambda (q_m q) ;;
    mu <- fdiv A ip (fofZ A (q_m q)) ;;
    let q := q <| q_lambda := lambda |> <| q_mu := Some mu |> in
    '(ok, q) <- (if flt A (q_sigma_d q) (sigma (q_options q)) then predictor_branch A q
                 else q <- centering_branch A q ;; Ok (true, q)) ;;
    if ok : bool then
      q <- take_step A q ;;
      Ok (q, false)
    else Ok (q, true).

Lemma iter_parts q : solve_iter A q = (q2 <- head q ;; _ <- print_line A q2 ;; tail q2).
Proof. unfold solve_iter, head, tail. destruct (computeresiduals A q) as [q1| |]; cbn [bind]; auto. destruct (obj_value _ _ _ _ _) as [[fv temp]| |]; reflexivity. Qed.

Lemma text_parts q : solve_iter_text A q = (q2 <- head q ;; l <- progress A q2 ;; '(q', b) <- tail q2 ;; Ok (q', b, if b : bool then l else l ++ steps_line A q')).
Proof.
  unfold solve_iter_text, head, tail. destruct (computeresiduals A q) as [q1| |]; cbn [bind]; auto. destruct (obj_value _ _ _ _ _) as [[fv temp]| |]; cbn [bind]; auto.
  match goal with |- context[progress A ?x] => set (q2 := x) end. destruct (progress A q2) as [l| |]; cbn [bind]; auto.
  destruct (stop_test A q2) as [[]| |]; cbn [bind]; auto. destruct (formlambda _ _ _ _ _) as [lam| |]; cbn [bind]; auto.
  destruct (innerproduct _ _ _ _) as [ip| |]; cbn [bind]; auto. destruct (fdiv _ _ _) as [mu| |]; cbn [bind]; auto.
  match goal with |- context[if flt A ?a ?b then ?x else ?y] => destruct (if flt A a b then x else y) as [[[] q4]| |]; cbn [bind]; auto end.
  destruct (take_step A q4) as [q5| |]; cbn [bind]; auto.
Qed.

Lemma iter_forget q : forget (solve_iter_text A q) = solve_iter A q.
Proof.
  rewrite text_parts, iter_parts. destruct (head q) as [q2| |]; cbn [bind forget]; auto. rewrite <- progress_forget. destruct (progress A q2) as [l| |]; cbn [bind forget]; auto.
  destruct (tail q2) as [[q' b]| |]; reflexivity.
Qed.

(** C73: exit code and handle are those of [QP_SOLVE], for every handle. *)
Theorem C73_same q : forget (QP_SOLVE_text A q) = QP_SOLVE A q.
Proof.
  unfold QP_SOLVE_text, QP_SOLVE. destruct (Flag (q_stats q) =? QP_KKTFAIL); [reflexivity|].
  unfold for_. pose proof (forN_forget (Z.to_nat (maxit (q_options q) - 0)) 0
    (fun _ st => let '(q, stopped) := st in if stopped : bool then Ok (q, true) else solve_iter A q)
    (fun _ st => let '(q, stopped, l) := st in if stopped : bool then Ok (q, true, l)
        else '(q, stopped, l') <- solve_iter_text A q ;; Ok (q, stopped, l ++ l')) (q, false, opening A q)) as H.
  cbn [fst] in H. rewrite <- H.
  - destruct (forN _ _ _ _) as [[[q1 b1] l1]| |]; reflexivity.
  - intros _ [[q1 b1] l1]. cbn [fst]. destruct b1; [reflexivity|]. rewrite <- iter_forget. destruct (solve_iter_text A q1) as [[[q2 b2] l2]| |]; reflexivity.
Qed.

(** ** The closing lines *)

(** What the last line says for each exit code. *)
Definition verdict (code it : Z) : list (line F) :=
  if code =? 0 then [Found it] else if code =? 1 then [LdlFail] else if code =? 2 then [Limit it] else if code =? 3 then [Unknown] else [].

Lemma closing_verdict f it : (if f =? QP_OPTIMAL then [Found it] else []) ++ (if f =? QP_MAXIT then [Limit it] else []) ++
    (if f =? QP_FATAL then [Unknown] else []) ++ (if f =? QP_KKTFAIL then [LdlFail] else []) = verdict f it.
Proof.
  unfold verdict, QP_OPTIMAL, QP_MAXIT, QP_FATAL, QP_KKTFAIL.
  destruct (Z.eqb_spec f 0), (Z.eqb_spec f 1), (Z.eqb_spec f 2), (Z.eqb_spec f 3); try lia; reflexivity.
Qed.

(** C73: the text ends with the line for the exit code and the iteration count left in the handle; every handle. *)
Theorem C73_verdict q c q' t : QP_SOLVE_text A q = Ok (c, q', t) -> 0 < verbose (q_options q') ->
  exists t', t = t' ++ verdict c (IterationCount (q_stats q')).
Proof.
  assert (C : forall q, 0 < verbose (q_options q) -> closing A q = verdict (Flag (q_stats q)) (IterationCount (q_stats q))).
  { intros q0 H. unfold closing. rewrite (proj2 (Z.ltb_lt _ _) H). apply closing_verdict. }
  unfold QP_SOLVE_text. destruct (Flag (q_stats q) =? QP_KKTFAIL).
  - intros E Hv. injection E as <- <- <-. rewrite (C q Hv). eauto.
  - destruct (for_ _ _ _ _) as [[[q1 b] l]| |]; cbn [bind]; try discriminate. cbv zeta.
    match goal with |- context[closing A ?x] => set (q2 := x) end.
    intros E Hv. injection E as <- <- <-. rewrite (C _ Hv). eauto.
Qed.

(** ** The lines of a session *)

(** The progress line for given statistics. *)
Definition shown (st : stats F) : list (line F) :=
  match fval st, n_rx st, n_ry st, n_rz st, n_mu st with
  | Some fv, Some rx, Some ry, Some rz, Some mu => [Progress (IterationCount st) fv rx ry rz mu]
  | _, _, _, _, _ => []
  end.
Definition when (v : Z) (t : list (line F)) : list (line F) := if 0 <? v then t else [].

Variable B : prob F.
Notation sno := (sn_o A).
Notation snst := (sn_st A).
Notation snpt := (sn_pt A).

Lemma head_ok ps q s : Safe A ps -> At A B q s ->
  wp (head q) (fun q2 => q_stats q2 = resid_stats A B (snpt s) (snst s) /\ q_options q2 = sno s).
Proof.
  intros SF [HB HP Ho Hst]. unfold head. wb. eapply wp_mono; [apply (computeresiduals_ok A B ps q (snpt s)); auto|].
  intros q1 [rx [ry [rz [Eq1 _]]]]. wb. eapply wp_mono.
  { eapply (obj_value_ok A _ _ _ _ (pn B) (pP B) (pc B) (ptX A (snpt s))).
    - rewrite Eq1. apply (b_P _ _ _ HB).
    - rewrite Eq1. apply (b_c _ _ _ HB).
    - rewrite Eq1. apply is_vec_vec, HP.
    - rewrite Eq1. apply (b_temp _ _ _ HB). }
  intros [fv temp] [Efv Ltemp]. cbn [fst snd] in Efv, Ltemp. subst fv. wok. rewrite Eq1. split; [|exact Ho].
  rewrite <- Hst. reflexivity.
Qed.

Definition passT (s : snap A) : list (line F) :=
  when (verbose (sno s)) (shown (resid_stats A B (snpt s) (snst s)) ++
    if stopF A B (snpt s) (sno s) then [] else [Steps (apF A B (snpt s) (sigma (sno s))) (adF A B (snpt s) (sigma (sno s)))]).

Lemma iter_text_ok ps q s : Safe A ps -> At A B q s -> interior A B ps (snpt s) -> printableS A B s ->
  exists q', solve_iter_text A q = Ok (q', snd (iterF A B s), passT s) /\ At A B q' (fst (iterF A B s)).
Proof.
  intros SF HA HI Hp. pose proof (solve_iter_At A B ps q s SF HA HI Hp) as H1. rewrite iter_parts in H1. rewrite text_parts.
  destruct (proj1 (wp_exists _ _) (head_ok ps q s SF HA)) as [q2 [E2 [Est Eo]]]. rewrite E2 in *. cbn [bind] in *.
  rewrite <- progress_forget in H1. 
  assert (Ep : progress A q2 = Ok (when (verbose (sno s)) (shown (resid_stats A B (snpt s) (snst s))))).
  { destruct (progress A q2) as [l| |] eqn:E; cbn [bind] in H1; try contradiction. unfold progress in E. rewrite Est, Eo in E. unfold when.
    destruct (0 <? verbose (sno s)); [|symmetry; exact E]. unfold use, shown, resid_stats in *. cbn [fval n_rx n_ry n_rz n_mu IterationCount bind] in *.
    destruct (if pp B =? 0 then n_ry (snst s) else Some (nrm A (ryF A B (snpt s)) (pp B))); [|discriminate E]. symmetry. exact E. }
  rewrite Ep in *. cbn [bind] in *. destruct (tail q2) as [[q' b]| |]; cbn [wp bind fst snd] in *; try contradiction.
  destruct H1 as [H1 [-> _]]. exists q'. split; [|exact H1]. do 2 f_equal. unfold passT, iterF in *. cbv zeta in *.
  destruct (stopF A B (snpt s) (sno s)); cbn [fst snd] in *; [rewrite app_nil_r; reflexivity|].
  unfold steps_line, when. rewrite (at_o _ _ _ _ H1), (at_st _ _ _ _ H1). cbn [sn_o sn_st]. change (verbose ((sno s) <| sigma := sigF A B (snpt s) (sigma (sno s)) |>)) with (verbose (sno s)).
  destruct (0 <? verbose (sno s)); reflexivity.
Qed.

Fixpoint runT (k : nat) (s : snap A) : list (line F) :=
  match k with O => [] | S k => runT k s ++ if snd (runF A B k s) then [] else passT (fst (runF A B k s)) end.

Lemma solve_text_ok ps q s : Safe A ps -> At A B q s -> interior A B ps (snpt s) -> printableS A B s -> Flag (snst s) <> QP_KKTFAIL ->
  exists q', QP_SOLVE_text A q = Ok (Flag (snst (solveF A B s)), q', when (verbose (sno s)) [Banner] ++ runT (Z.to_nat (maxit (sno s))) s ++
      when (verbose (sno s)) (verdict (Flag (snst (solveF A B s))) (IterationCount (snst (solveF A B s))))) /\
    At A B q' (solveF A B s) /\ QP_SOLVE A q = Ok (Flag (snst (solveF A B s)), q').
Proof.
  intros SF HA Hi Hp Hfl.
  destruct (proj1 (wp_exists _ _) (QP_SOLVE_ok A B ps q s SF HA Hi Hp Hfl)) as [[c q'] [E0 [HA' [Ec _]]]]. cbn [fst snd] in *. subst c.
  pose proof (C73_same q) as Hs. rewrite E0 in Hs.
  assert (W : wp (QP_SOLVE_text A q) (fun r => exists t, snd r = t ++ closing A (snd (fst r)) /\ t = when (verbose (sno s)) [Banner] ++ runT (Z.to_nat (maxit (sno s))) s)).
  { unfold QP_SOLVE_text. rewrite (at_st _ _ _ _ HA). destruct (Z.eqb_spec (Flag (snst s)) QP_KKTFAIL); [congruence|].
    wb. rewrite (at_o _ _ _ _ HA).
    apply (wp_for (fun i st => At A B (fst (fst st)) (fst (runF A B (Z.to_nat i) s)) /\ snd (fst st) = snd (runF A B (Z.to_nat i) s) /\
       snd st = when (verbose (sno s)) [Banner] ++ runT (Z.to_nat i) s)).
    - cbn. split; [exact HA|]. split; [reflexivity|]. unfold opening, when. rewrite (at_o _ _ _ _ HA), app_nil_r. reflexivity.
    - intros i [[q1 b1] l1] Hr [HA1 [Eb El]]. cbn [fst snd] in *. replace (Z.to_nat (i + 1)) with (S (Z.to_nat i)) by lia. cbn [runF runT]. rewrite <- Eb.
      destruct b1.
      + wok. cbn [fst snd]. rewrite app_nil_r. auto.
      + destruct (iter_text_ok ps q1 _ SF HA1) as [q2 [E2 H2]]; [apply runF_interior; auto|apply runF_printable; auto|].
        rewrite E2. wb. wok. wok. cbn [fst snd]. split; [exact H2|]. split; [reflexivity|]. rewrite El. rewrite <- app_assoc. reflexivity.
    - intros [[q1 b1] l1] [HA1 [_ El]]. cbn [fst snd] in *. replace (Z.to_nat (Z.max 0 (maxit (sno s)))) with (Z.to_nat (maxit (sno s))) in El by lia.
      wok. cbn [fst snd]. exists l1. auto. }
  destruct (QP_SOLVE_text A q) as [[[c1 q1] t1]| |]; cbn [forget bind fst] in Hs; try discriminate Hs. injection Hs as -> ->.
  cbn [wp fst snd] in W. destruct W as [t [-> ->]]. exists q'. split; [|split; [exact HA'|exact E0]]. do 2 f_equal. rewrite <- app_assoc. do 2 f_equal.
  unfold closing, when. rewrite (at_o _ _ _ _ HA'), (at_st _ _ _ _ HA'), solveF_verbose. destruct (0 <? verbose (sno s)); [|reflexivity]. apply closing_verdict.
Qed.

Lemma runT_walk k s : (forall j, (j < k)%nat -> stops A B (walk A B j s) = false) -> runT k s = flat_map (fun i => passT (walk A B i s)) (seq 0 k).
Proof.
  induction k as [|k IH]; intros H; [reflexivity|]. cbn [runT]. rewrite IH by (intros; apply H; lia).
  destruct (runF_cases A B k s) as [[E _]|[j [Hj [Hs _]]]]; [|rewrite (H j) in Hs by lia; discriminate Hs].
  rewrite E. cbn [fst snd]. rewrite seq_S, flat_map_app. cbn [flat_map plus]. rewrite app_nil_r. reflexivity.
Qed.

Lemma runT_stop k j s : (j < k)%nat -> (forall i, (i < j)%nat -> stops A B (walk A B i s) = false) -> stops A B (walk A B j s) = true ->
  runT k s = flat_map (fun i => passT (walk A B i s)) (seq 0 (S j)).
Proof.
  intros Hj H1 H2. induction k as [|k IH]; [lia|]. cbn [runT]. destruct (Nat.eq_dec j k) as [->|].
  - rewrite (runT_walk k s H1). destruct (runF_cases A B k s) as [[E _]|[i [Hi [Hs _]]]]; [|rewrite (H1 i Hi) in Hs; discriminate Hs].
    rewrite E. cbn [fst snd]. rewrite seq_S, flat_map_app. cbn [flat_map plus]. rewrite app_nil_r. reflexivity.
  - rewrite IH by lia. destruct (runF_cases A B k s) as [[E H]|[i [Hi [Hs [_ E]]]]]; [rewrite (H j) in H2 by lia; discriminate H2|].
    rewrite E. cbn [snd]. rewrite app_nil_r. reflexivity.
Qed.
End Text.

Lemma walk_limit A B K s j : walk A B j (set_o A s ((sn_o A s) <| maxit := K |>)) =
  set_o A (walk A B j s) ((sn_o A (walk A B j s)) <| maxit := K |>).
Proof. induction j as [|j IH]; [reflexivity|]. cbn [walk]. rewrite IH. unfold set_o. cbn [sn_pt sn_o sn_st]. reflexivity. Qed.

Section Props.
Variable A : Arith.
Notation F := (car A).
Variable ps : F -> Prop.
Hypothesis SF : Safe A ps.
Variable amd : amd_t.
Variable u : user F.
Hypothesis V : valid_user amd u.

(** A progress line with the iteration number [it] and the values that the statistics [st] hold. *)
Definition progress_of (it : Z) (st : stats F) (t : list (line F)) : Prop := exists fv rx ry rz mu,
  fval st = Some fv /\ n_rx st = Some rx /\ n_ry st = Some ry /\ n_rz st = Some rz /\ n_mu st = Some mu /\ t = [Progress it fv rx ry rz mu].


Lemma solve_state l codes q : quiet_calls A u (l ++ [Solve A]) -> session A amd u l = Ok (codes, q) ->
  exists B q0 r s, Started A u B q0 r /\ At A B q s /\ interior A B ps (sn_pt A s) /\ printableS A B s /\ Flag (sn_st A s) <> QP_KKTFAIL /\ pp B = u_pe u /\
   (forall l', quiet_calls A u (l ++ l') -> exists q', session A amd u (l ++ l') = Ok (codes ++ fst (callsF A B s l'), q') /\ At A B q' (snd (callsF A B s l'))).
Proof.
  intros Q E. destruct (session_from A ps SF amd u V) as [q0 [B [r [_ [HS HF]]]]].
  assert (Q1 : quiet_calls A u l) by (destruct Q as [H|H]; [left; auto|right; intros o Ho; apply H, in_or_app; auto]).
  destruct (HF l Q1) as [q1 [E1 [HA HI]]]. rewrite E in E1. injection E1 as -> <-.
  exists B, q0, r, (snd (callsF A B (fresh A B r) l)). split; [exact HS|]. split; [exact HA|]. split; [exact HI|].
  assert (EB : pp B = u_pe u) by (destruct (sd_B _ _ _ _ _ HS) as [Pf [Qf [par ->]]]; reflexivity).
  split; [apply loud_printable, callsF_loud; [right; cbn; lia|]|].
  { destruct Q1 as [H|H]; [left; rewrite EB; exact H|right; exact H]. }
  split; [apply callsF_nofail; cbn; discriminate|]. split; [exact EB|].
  intros l' Q'. destruct (HF _ Q') as [q' [E' [HA' _]]]. rewrite callsF_app in E', HA'. exists q'. split; [exact E'|exact HA'].
Qed.

Lemma shown_of B pt st : pp B <> 0 -> shown A (resid_stats A B pt st) = [Progress (IterationCount st) (fvalF A B pt) (nrm A (rxF A B pt) (pn B)) (nrm A (ryF A B pt) (pp B)) (nrm A (rzF A B pt) (pm B)) (nmuF A B pt)].
Proof. intros H. unfold shown, resid_stats. cbn [fval n_rx n_ry n_rz n_mu IterationCount]. rewrite (proj2 (Z.eqb_neq _ _) H). reflexivity. Qed.

(** The text in terms of the points of the run. *)
Lemma text_walk B q s : At A B q s -> interior A B ps (sn_pt A s) -> printableS A B s -> Flag (sn_st A s) <> QP_KKTFAIL -> 0 < verbose (sn_o A s) ->
  forall k, (forall j, (j < k)%nat -> stops A B (walk A B j s) = false) -> Z.of_nat k <= Z.max 0 (maxit (sn_o A s)) -> (Z.of_nat k < maxit (sn_o A s) -> stops A B (walk A B k s) = true) ->
  exists q', QP_SOLVE_text A q = Ok (Flag (sn_st A (solveF A B s)), q', Banner :: flat_map (fun i => let t := walk A B i s in shown A (resid_stats A B (sn_pt A t) (sn_st A t)) ++
       [Steps (apF A B (sn_pt A t) (sigma (sn_o A t))) (adF A B (sn_pt A t) (sigma (sn_o A t)))]) (seq 0 k) ++
       (if Z.of_nat k <? maxit (sn_o A s) then shown A (resid_stats A B (sn_pt A (walk A B k s)) (sn_st A (walk A B k s))) else []) ++
       verdict A (Flag (sn_st A (solveF A B s))) (IterationCount (sn_st A (solveF A B s)))) /\
     At A B q' (solveF A B s) /\ QP_SOLVE A q = Ok (Flag (sn_st A (solveF A B s)), q').
Proof.
  intros HA HI Hp Hf Hv k H1 H2 H3. destruct (solve_text_ok A B ps q s SF HA HI Hp Hf) as [q' [E1 [E2 E3]]]. exists q'. split; [|auto].
  rewrite E1. unfold when. rewrite (proj2 (Z.ltb_lt _ _) Hv). do 2 f_equal. cbn [app]. f_equal. rewrite app_assoc. f_equal.
  assert (P : forall i, (i < k)%nat -> passT A B (walk A B i s) = let t := walk A B i s in shown A (resid_stats A B (sn_pt A t) (sn_st A t)) ++
       [Steps (apF A B (sn_pt A t) (sigma (sn_o A t))) (adF A B (sn_pt A t) (sigma (sn_o A t)))]).
  { intros i Hi. unfold passT, when. rewrite walk_verbose, (proj2 (Z.ltb_lt _ _) Hv). specialize (H1 i Hi). unfold stops in H1. rewrite H1. reflexivity. }
  assert (P' : flat_map (fun i => passT A B (walk A B i s)) (seq 0 k) = flat_map (fun i => let t := walk A B i s in shown A (resid_stats A B (sn_pt A t) (sn_st A t)) ++
       [Steps (apF A B (sn_pt A t) (sigma (sn_o A t))) (adF A B (sn_pt A t) (sigma (sn_o A t)))]) (seq 0 k)).
  { rewrite !flat_map_concat_map. f_equal. apply map_ext_in. intros i Hi. apply in_seq in Hi. apply P. lia. }
  destruct (Z.ltb_spec (Z.of_nat k) (maxit (sn_o A s))) as [L|L].
  - rewrite (runT_stop A B _ k s) by (auto; lia). rewrite seq_S, flat_map_app, P'. f_equal. cbn [flat_map plus]. rewrite app_nil_r.
    unfold passT, when. rewrite walk_verbose, (proj2 (Z.ltb_lt _ _) Hv). specialize (H3 L). unfold stops in H3. rewrite H3, app_nil_r. reflexivity.
  - replace (Z.to_nat (maxit (sn_o A s))) with k by lia. rewrite runT_walk by exact H1. rewrite P', app_nil_r. reflexivity.
Qed.

(** A solve with verbosity 0 or less prints nothing. *)
Theorem C73_quiet l codes q : quiet_calls A u (l ++ [Solve A]) -> session A amd u l = Ok (codes, q) -> verbose (q_options q) <= 0 ->
  exists c q', QP_SOLVE_text A q = Ok (c, q', []) /\ session A amd u (l ++ [Solve A]) = Ok (codes ++ [c], q').
Proof.
  intros Q E Hv. destruct (solve_state l codes q Q E) as [B [q0 [r [s [HS [HA [HI [Hp [Hf [EB _]]]]]]]]]].
  destruct (solve_text_ok A B ps q s SF HA HI Hp Hf) as [q' [E1 [E2 E3]]]. exists (Flag (sn_st A (solveF A B s))), q'. split.
  - rewrite E1. rewrite (at_o _ _ _ _ HA) in Hv. unfold when. rewrite (proj2 (Z.ltb_ge _ _) Hv). rewrite app_nil_r. cbn [app].
    assert (Z0 : forall k, runT A B k s = []); [|rewrite Z0; reflexivity]. induction k as [|k IH]; [reflexivity|]. cbn [runT]. rewrite IH. cbn [app].
    destruct (snd (runF A B k s)); [reflexivity|]. unfold passT, when.
    assert (Ev : verbose (sn_o A (fst (runF A B k s))) = verbose (sn_o A s)).
    { clear. induction k as [|k IH]; [reflexivity|]. cbn [runF]. cbv zeta. destruct (snd (runF A B k s)); [exact IH|]. rewrite iterF_verbose. exact IH. }
    rewrite Ev, (proj2 (Z.ltb_ge _ _) Hv). reflexivity.
  - rewrite (session_app A amd u l [Solve A] _ _ E). cbn [run_calls]. rewrite E3. reflexivity.
Qed.

(** Number of iterations of a solve. *)
Lemma solve_count B s : exists k, (forall j, (j < k)%nat -> stops A B (walk A B j s) = false) /\ Z.of_nat k <= Z.max 0 (maxit (sn_o A s)) /\ (Z.of_nat k < maxit (sn_o A s) -> stops A B (walk A B k s) = true) /\
  IterationCount (sn_st A (solveF A B s)) = IterationCount (sn_st A s) + Z.of_nat k /\
  (Z.of_nat k < maxit (sn_o A s) -> exists f, sn_st A (solveF A B s) = (resid_stats A B (sn_pt A (walk A B k s)) (sn_st A (walk A B k s))) <| Flag := f |>).
Proof.
  destruct (solveF_any A B s) as [[i [H1 [H2 [H3 [H4 [H5 H6]]]]]]|[H1 [H2 [H3 H4]]]].
  - exists i. split; auto. split; [lia|]. split; auto. split; [exact H4|]. intros _. rewrite H3. clear H4 H6. unfold finalF. destruct (_ =? _); [exists QP_MAXIT|exists QP_OPTIMAL]; reflexivity.
  - exists (Z.to_nat (maxit (sn_o A s))). split; [intros j Hj; apply H1; lia|]. split; [lia|]. split; [lia|]. split; [rewrite H3; lia|lia].
Qed.

(** C73: with equality constraints and a positive verbosity, every solve of every session, in any arithmetic.  The two
    lines of pass i show the statistics that the same calls leave when the solve is limited to i + 1 passes. *)
Theorem C73_lines l codes q : u_pe u <> 0 -> session A amd u l = Ok (codes, q) -> 0 < verbose (q_options q) ->
  exists c q' k pass final, session A amd u (l ++ [Solve A]) = Ok (codes ++ [c], q') /\
    QP_SOLVE_text A q = Ok (c, q', Banner :: flat_map pass (seq 0 k) ++ final ++ verdict A c (IterationCount (q_stats q'))) /\
    IterationCount (q_stats q') = IterationCount (q_stats q) + Z.of_nat k /\
    (if Z.of_nat k <? maxit (q_options q) then progress_of (IterationCount (q_stats q')) (q_stats q') final else final = []) /\
    forall i, (i < k)%nat -> exists ci qi t,
      session A amd u (l ++ [SetOptions A ((q_options q) <| maxit := Z.of_nat i + 1 |>); Solve A]) = Ok (codes ++ [ci], qi) /\
      progress_of (IterationCount (q_stats q) + Z.of_nat i) (q_stats qi) t /\ pass i = t ++ [Steps (alpha_p (q_stats qi)) (alpha_d (q_stats qi))].
Proof.
  intros Hu E Hv. assert (Q : forall l', quiet_calls A u l') by (intros l'; left; exact Hu).
  destruct (solve_state l codes q (Q _) E) as [B [q0 [r [s [HS [HA [HI [Hp [Hf [EB HF]]]]]]]]]].
  assert (HB : pp B <> 0) by (rewrite EB; exact Hu).
  destruct (solve_count B s) as [k [K1 [K2 [K3 [K4 K5]]]]]. rewrite (at_o _ _ _ _ HA) in *. rewrite (at_st _ _ _ _ HA).
  destruct (text_walk B q s HA HI Hp Hf Hv k K1 K2 K3) as [q' [T1 [T2 T3]]].
  eexists _, q', k, _, _. split; [rewrite (session_app A amd u l [Solve A] _ _ E); cbn [run_calls]; rewrite T3; reflexivity|].
  rewrite (at_st _ _ _ _ T2). split; [exact T1|]. split; [exact K4|]. split.
  - destruct (Z.ltb_spec (Z.of_nat k) (maxit (sn_o A s))) as [L|L]; [|reflexivity]. destruct (K5 L) as [f Ef]. rewrite shown_of by exact HB. rewrite K4, walk_iter, Ef.
    do 5 eexists. do 5 (split; [try reflexivity; cbn; rewrite (proj2 (Z.eqb_neq _ _) HB); reflexivity|]). reflexivity.
  - intros i Hi. set (o := (sn_o A s) <| maxit := Z.of_nat i + 1 |>). destruct (HF [SetOptions A o; Solve A] (Q _)) as [qi [Ei HAi]].
    cbn [callsF fst snd] in Ei, HAi. eexists _, qi, _. split; [exact Ei|]. rewrite (at_st _ _ _ _ HAi).
    assert (Est : exists f, sn_st A (solveF A B (set_o A s o)) = (sn_st A (walk A B (S i) s)) <| Flag := f |>).
    { destruct (solveF_any A B (set_o A s o)) as [[j [H1 [H2 [_ [_ [H5 _]]]]]]|[_ [H2 _]]]. clear T1.
      - exfalso. unfold o in H1, H5. rewrite walk_limit in H1. change (Z.of_nat j < Z.of_nat i + 1) in H5. assert (X : stops A B (walk A B j s) = false) by (apply K1; lia). change (stops A B (walk A B j s) = true) in H1. rewrite X in H1. discriminate H1.
      - rewrite H2. change (maxit (sn_o A (set_o A s o))) with (Z.of_nat i + 1). replace (Z.to_nat (Z.of_nat i + 1)) with (S i) by lia.
        unfold o. rewrite walk_limit. unfold finalF. destruct (_ =? _); [exists QP_MAXIT; reflexivity|exists (Flag (sn_st A (walk A B (S i) s)))]. unfold set_o. cbn [sn_st]. destruct (sn_st A (walk A B (S i) s)). reflexivity. }
    destruct Est as [f ->]. split; [|reflexivity]. cbn [walk]. rewrite shown_of by exact HB. rewrite walk_iter.
    do 5 eexists. do 5 (split; [try reflexivity; cbn; rewrite (proj2 (Z.eqb_neq _ _) HB); reflexivity|]). reflexivity.
Qed.
End Props.

(** ** Exact arithmetic *)

(** The progress line that belongs to a point. *)
Definition progress_at (Q : QPdata) (it : Z) (v : vars) : line R :=
  Progress it (objective Q (vx v)) (Euclid (res_dual Q (vx v) (vy v) (vz v)) (dn Q)) (Euclid (res_eq Q (vx v)) (dp Q))
    (Euclid (res_in Q (vx v) (vs v)) (dm Q)) (gap Q (vs v) (vz v)).

Lemma shown_exact B pt st : Dims B -> pp B <> 0 -> shown RA (resid_stats RA B pt st) = [progress_at (qp_of B) (IterationCount st) (pt_vars pt)].
Proof.
  intros HD HB. pose proof (resid_reports B pt (resid_stats RA B pt st) st HD eq_refl) as [R1 R2 R3 R4 R5]. specialize (R3 HB).
  rewrite shown_of by exact HB. unfold progress_at. 
  assert (R3' : (if pp B =? 0 then n_ry st else Some (nrm RA (ryF RA B pt) (pp B))) = Some (Euclid (res_eq (qp_of B) (vx (pt_vars pt))) (dp (qp_of B)))) by exact R3.
  rewrite (proj2 (Z.eqb_neq (pp B) 0) HB) in R3'. 
  f_equal. f_equal; [injection R1|injection R2|injection R3'|injection R4|injection R5]; intros X; exact X.
Qed.

(** C73: in exact arithmetic every pass prints objective, residual norms and gap of the point it starts from and then
    the two step lengths it takes; the point that passes the test is shown last. *)
Theorem C73_exact amd u l codes q : valid_user amd u -> covered u -> symmetric (user_qp u) -> u_pe u <> 0 ->
  session RA amd u l = Ok (codes, q) -> 0 < verbose (q_options q) ->
  exists c q' k V sg ap ad, session RA amd u (l ++ [Solve RA]) = Ok (codes ++ [c], q') /\ solve_meaning u q c q' k V sg ap ad /\
    QP_SOLVE_text RA q = Ok (c, q', Banner :: flat_map (fun i => [progress_at (user_qp u) (IterationCount (q_stats q) + Z.of_nat i) (V i); Steps (ap i) (ad i)]) (seq 0 k) ++
      (if Z.of_nat k <? maxit (q_options q) then [progress_at (user_qp u) (IterationCount (q_stats q) + Z.of_nat k) (V k)] else []) ++
      verdict RA c (IterationCount (q_stats q'))).
Proof.
  intros V Hc Hs Hu E Hv. destruct (solve_state RA Rpos Safe_R amd u V l codes q (or_introl Hu) E) as [B [q0 [r [s [HS [HA [HI [Hp [Hf [EB HF]]]]]]]]]].
  assert (HB : pp B <> 0) by (rewrite EB; exact Hu). pose proof (started_dims amd u B q0 r V HS) as HD.
  pose proof (at_o _ _ _ _ HA) as Eo. pose proof (at_st _ _ _ _ HA) as Est. cbn [car RA] in *.
  destruct (HF [Solve RA] (or_introl Hu)) as [q1 [E1 HA1]]. cbn [callsF fst snd] in E1, HA1.
  destruct (solve_means_walk amd u B q0 r V HS Hc Hs q s q1 HA HI HA1) as [k [[K1 [K2 K3]] M]].
  rewrite Eo in Hv. destruct (text_walk RA Rpos Safe_R B q s HA HI Hp Hf Hv k K1 K2 K3) as [q' [T1 [T2 T3]]].
  assert (E2 : session RA amd u (l ++ [Solve RA]) = Ok (codes ++ [Flag (sn_st RA (solveF RA B s))], q')).
  { rewrite (session_app RA amd u l [Solve RA] _ _ E). cbn [run_calls]. rewrite T3. reflexivity. }
  rewrite E1 in E2. injection E2 as <-. pose proof (at_st _ _ _ _ HA1) as Est1. cbn [car RA] in *.
  exists (Flag (q_stats q1)), q1, k. do 4 eexists. split; [rewrite Est1; exact E1|]. split; [exact M|]. rewrite Eo, Est. rewrite Est1 at 1 2 3.
  rewrite <- (started_qp u B q0 r HS). etransitivity; [exact T1|]. do 2 f_equal. f_equal. f_equal; [|f_equal].
  - rewrite !flat_map_concat_map. f_equal. apply map_ext. intros i. cbv zeta. rewrite shown_exact by assumption. rewrite walk_iter. reflexivity.
  - destruct (_ <? _); [|reflexivity]. rewrite shown_exact by assumption. rewrite walk_iter. reflexivity.
Qed.

(** ** Cases *)

(** Minimise x^2/2 subject to x = 1 and x >= 0. *)
Definition pinned (A : Arith) : user (car A) :=
  mkUser 1 1 1 (zs [0; 1]) (zs [0]) (fs A [1]) (Some (zs [0; 1])) (Some (zs [0])) (Some (fs A [1])) (zs [0; 1]) (zs [0]) (fs A [-1])
    (fs A [0]) (fs A [0]) (Some (fs A [1])) (f0 A) (Some (zs [0; 2; 1])).

Lemma pinned_valid A amd : valid_user amd (pinned A).
Proof.
  constructor; cbn [pinned u_n u_m u_p u_Pjc u_Pir u_Ppr u_Gjc u_Gir u_Gpr u_c u_h u_perm].
  - lia.
  - lia.
  - csc_concrete.
  - csc_concrete.
  - intros ajc air apr bb E. cbn in E. injection E as <- <- <- <-. split; [lia|]. split; [csc_concrete|]. intros i Hi. enum i. eexists. reflexivity.
  - intros i Hi. enum i; eexists; reflexivity.
  - intros i Hi. enum i; eexists; reflexivity.
  - exists 0, 0, (fofZ A 1). split; [lia|]. left. exists 0, 1, 0. cbn. repeat split; auto; lia.
  - change (u_N (pinned A)) with 3. perm_concrete.
Qed.

Definition loud (x k : Z) : settings (car FA) := (tol x ((default_settings FA) <| maxit := k |>)) <| verbose := 1 |>.

(** One step with limit 1; a solve with a tolerance that everything meets; one more step with tolerance 0 and limit 1. *)
Definition stale_calls : list (call FA) := [SetOptions FA (loud 0 1); Solve FA; SetOptions FA (loud 1000000 100); Solve FA; SetOptions FA (loud 0 1)].

Definition ends_found {F} (t : list (line F)) : bool := match rev t with Found _ :: _ => true | _ => false end.

Definition stale_check (r : res (list Z * qp (car FA))) : bool := match r with
  | Ok (_, q) => match QP_SOLVE_text FA q with Ok (c, q', t) => ends_found t && negb (test_val FA (q_options q) q') | _ => false end
  | _ => false end.

(** C73 fails for the closing line: a later solve announces an optimal solution although the point it returns does not
    pass the stopping test. *)
Theorem C73_found_refuted : exists (u : user (car FA)) l codes q c q' t it, valid_user noamd u /\ session FA noamd u l = Ok (codes, q) /\
  QP_SOLVE_text FA q = Ok (c, q', t ++ [Found it]) /\ ~ test_at FA (q_options q) q' true.
Proof.
  exists (pinned FA), stale_calls.
  assert (C : stale_check (session FA noamd (pinned FA) stale_calls) = true) by (vm_compute; reflexivity).
  unfold stale_check in C. destruct (session FA noamd (pinned FA) stale_calls) as [[codes q]| |] eqn:E; try discriminate C.
  destruct (QP_SOLVE_text FA q) as [[[c q'] t]| |] eqn:T; try discriminate C. apply andb_prop in C. destruct C as [C1 C2]. apply negb_true_iff in C2.
  unfold ends_found in C1. destruct (rev t) as [|[] t'] eqn:R; try discriminate C1. 
  exists codes, q, c, q', (rev t'), it. split; [apply pinned_valid|]. split; [reflexivity|].
  assert (Et : t = rev t' ++ [Found it]) by (rewrite <- (rev_involutive t), R; reflexivity).
  split; [rewrite <- Et; exact T|]. apply test_val_false. exact C2.
Qed.

(** Numbers printed and kinds of the lines, values left out. *)
Definition kind {F} (t : line F) : Z * Z := match t with
  | Banner => (0, 0) | Progress it _ _ _ _ _ => (1, it) | Steps _ _ => (2, 0) | Found it => (3, it) | Limit it => (4, it) | Unknown => (5, 0) | LdlFail => (6, 0) end.

Definition shape (r : res (list Z * qp (car FA))) : list (Z * Z) := match r with
  | Ok (_, q) => match QP_SOLVE_text FA q with Ok (_, _, t) => map kind t | _ => [] end
  | _ => [] end.

(** Two passes that reach the limit, and one stop without a pass. *)
Lemma C73_case_text : shape (session FA noamd (pinned FA) [SetOptions FA (loud 0 2)]) = [(0, 0); (1, 0); (2, 0); (1, 1); (2, 0); (4, 2)] /\
  shape (session FA noamd (pinned FA) [SetOptions FA (loud 1000000 100)]) = [(0, 0); (1, 0); (3, 0)].
Proof. split; vm_compute; reflexivity. Qed.

(** The hypotheses of [C73_exact] can be met. *)
Lemma C73_case amd o : 0 < verbose o -> valid_user amd (pinned RA) /\ covered (pinned RA) /\ symmetric (user_qp (pinned RA)) /\ u_pe (pinned RA) <> 0 /\
  exists q, session RA amd (pinned RA) [SetOptions RA o] = Ok ([], q) /\ q_options q = o.
Proof.
  intros Ho. split; [apply pinned_valid|]. split.
  { intros i Hi. change (u_m (pinned RA)) with 1 in Hi. enum i. exists 0, (-1)%R. split; [cbn; lia|]. exists 0, 1, 0. cbn. repeat split; auto; lia. }
  split. { intros i j Hi Hj. change (dn (user_qp (pinned RA))) with 1 in *. enum i. enum j. reflexivity. }
  split; [discriminate|]. destruct (session_from RA Rpos Safe_R amd (pinned RA) (pinned_valid RA amd)) as [q0 [B [r [_ [_ HF]]]]].
  destruct (HF [SetOptions RA o]) as [q [E [HA _]]]; [left; discriminate|]. exists q. split; [exact E|]. apply (at_o _ _ _ _ HA).
Qed.

Print Assumptions C73_same.
Print Assumptions C73_verdict.
Print Assumptions C73_quiet.
Print Assumptions C73_lines.
Print Assumptions C73_exact.
Print Assumptions C73_found_refuted.
Print Assumptions C73_case_text.
Print Assumptions C73_case.
