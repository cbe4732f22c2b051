(** Property C61: a solve of k iterations is k solves of one iteration. *)
From Coq Require Import ZArith List Lia Bool.
From RecordUpdate Require Import RecordUpdate.
From Verif Require Import Res Partial Arith Lists MSparse MSolver SemVec Flat Iter SafeInst Setup Session Spec Api Demo P5_Session P6_Codes.
Import ListNotations.
Open Scope Z_scope.
Open Scope res_scope.

(** ** Specification *)

Section Spec.
Variable A : Arith.
Notation F := (car A).

(** The caller's loop: myQP->options->maxit = 1; QP_SOLVE(myQP); k times. *)
Fixpoint singly (k : nat) (q : qp F) : res (qp F) :=
  match k with
  | O => Ok q
  | S k => '(_, q) <- QP_SOLVE A (q <| q_options := (q_options q) <| maxit := 1 |> |>) ;; singly k q
  end.

(** The same loop as a list of calls. *)
Definition singles (os : list (settings F)) : list (call A) := flat_map (fun o => [SetOptions A o; Solve A]) os.

(** Equal results but for the exit code and the iteration limit. *)
Record same_result (q q' : qp F) : Prop := mkSame {
  sr_x : q_x q' = q_x q; sr_y : q_y q' = q_y q; sr_z : q_z q' = q_z q; sr_s : q_s q' = q_s q;
  sr_stats : q_stats q' = (q_stats q) <| Flag := Flag (q_stats q') |>;
  sr_options : q_options q' = (q_options q) <| maxit := maxit (q_options q') |>
}.
End Spec.

(** ** Proof *)

Lemma callsF_loud A B l : forall s, loud_ok A B s -> quiet A B l -> loud_ok A B (snd (callsF A B s l)).
Proof.
  induction l as [|[o|] l IH]; intros s Hs Hq; cbn [callsF snd]; auto.
  - apply IH.
    + destruct Hq as [Hq|Hq]; [left; auto|right; cbn; apply Hq; left; reflexivity].
    + destruct Hq as [Hq|Hq]; [left; auto|right; intros o' Ho; apply Hq; right; auto].
  - apply IH.
    + destruct Hs as [Hs|Hs]; [left; auto|right; rewrite solveF_verbose; auto].
    + destruct Hq as [Hq|Hq]; [left; auto|right; intros o' Ho; apply Hq; right; auto].
Qed.

Lemma callsF_nofail A B l : forall s, Flag (sn_st A s) <> QP_KKTFAIL -> Flag (sn_st A (snd (callsF A B s l))) <> QP_KKTFAIL.
Proof. induction l as [|[o|] l IH]; intros s Hs; cbn [callsF snd]; auto. apply IH. apply solveF_flag; auto. Qed.

Section Proof.
Variable A : Arith.
Notation F := (car A).
Variable B : prob F.

Record sim (s t : snap A) : Prop := mkSim {
  si_pt : sn_pt A t = sn_pt A s;
  si_o : sn_o A t = (sn_o A s) <| maxit := maxit (sn_o A t) |>;
  si_st : sn_st A t = (sn_st A s) <| Flag := Flag (sn_st A t) |>
}.

Definition one (s : snap A) : snap A := solveF A B (set_o A s ((sn_o A s) <| maxit := 1 |>)).

Lemma sim_refl s : sim s s.
Proof. destruct s as [p [] []]. split; reflexivity. Qed.

Lemma sim_iter s t : sim s t -> snd (iterF A B t) = snd (iterF A B s) /\ sim (fst (iterF A B s)) (fst (iterF A B t)).
Proof.
  destruct s as [p o st], t as [p2 o2 st2]. intros [H1 H2 H3]. cbn in H1, H2, H3. subst p2. destruct o as [m1 r1 a1 s1 v1], o2 as [m2 r2 a2 s2 v2], st as [b1 b2 b3 b4 b5 b6 b7 b8 b9 b10 b11], st2 as [c1 c2 c3 c4 c5 c6 c7 c8 c9 c10 c11]. cbn in H2, H3. injection H2 as -> -> -> ->. injection H3 as -> -> -> -> -> -> -> -> -> ->.
  unfold iterF, stopF. cbn [sn_pt sn_o sn_st sigma reltol abstol]. destruct (_ && _); split; try reflexivity; split; reflexivity.
Qed.

Lemma sim_final s t : sim s t -> sim s (finalF A t).
Proof.
  destruct s as [p o st], t as [p2 o2 st2]. intros [H1 H2 H3]. cbn in H1, H2, H3. unfold finalF. destruct (_ =? _); split; cbn; auto.
  rewrite H3 at 1. destruct st; reflexivity.
Qed.
Lemma sim_sym s t : sim s t -> sim t s.
Proof.
  destruct s as [p o st], t as [p2 o2 st2]. intros [H1 H2 H3]. cbn in H1, H2, H3. subst p2. destruct o as [m1 r1 a1 s1 v1], o2 as [m2 r2 a2 s2 v2], st as [b1 b2 b3 b4 b5 b6 b7 b8 b9 b10 b11], st2 as [c1 c2 c3 c4 c5 c6 c7 c8 c9 c10 c11]. cbn in H2, H3. injection H2 as -> -> -> ->. injection H3 as -> -> -> -> -> -> -> -> -> ->. split; reflexivity.
Qed.
Lemma sim_trans s t v : sim s t -> sim t v -> sim s v.
Proof.
  destruct s as [p o st], t as [p2 o2 st2], v as [p3 o3 st3]. intros [H1 H2 H3] [G1 G2 G3]. cbn in *. subst. rewrite G2, G3, H2, H3. destruct o, st. split; reflexivity.
Qed.

(** Once the test has passed, a further pass changes nothing but the exit code. *)
Lemma iter_stopped s : snd (iterF A B s) = true -> sim (fst (iterF A B s)) (fst (iterF A B (fst (iterF A B s)))).
Proof.
  intros H. assert (E : stopF A B (sn_pt A s) (sn_o A s) = true) by (revert H; unfold iterF; destruct (stopF A B (sn_pt A s) (sn_o A s)); [reflexivity|discriminate]).
  assert (E1 : fst (iterF A B s) = stop_snap A B s) by (unfold iterF; rewrite E; reflexivity). rewrite E1.
  assert (E2 : fst (iterF A B (stop_snap A B s)) = stop_snap A B (stop_snap A B s)) by (unfold iterF; change (sn_pt A (stop_snap A B s)) with (sn_pt A s); change (sn_o A (stop_snap A B s)) with (sn_o A s); rewrite E; reflexivity). rewrite E2.
  unfold stop_snap, resid_stats. cbn [sn_pt sn_o sn_st]. destruct (sn_o A s), (sn_st A s). split; cbn [sn_pt sn_o sn_st]; [reflexivity|reflexivity|destruct (_ =? _); reflexivity].
Qed.

Lemma one_iter s t : sim s t -> sim (fst (iterF A B s)) (one t).
Proof.
  intros H. unfold one, solveF. cbn [set_o sn_o maxit]. change (Z.to_nat (maxit _)) with 1%nat. cbn [runF fst snd].
  apply sim_final. apply sim_iter. eapply sim_trans; [exact H|]. destruct t as [p o st]. destruct o, st. split; reflexivity.
Qed.

Fixpoint ones (k : nat) (s : snap A) : snap A := match k with O => s | S k => ones k (one s) end.
Lemma ones_last k : forall s, ones (S k) s = one (ones k s).
Proof. induction k; intros s; [reflexivity|]. cbn [ones] in *. apply IHk. Qed.

Lemma ones_verbose k : forall s, verbose (sn_o A (ones k s)) = verbose (sn_o A s).
Proof. induction k; intros s; [reflexivity|]. cbn [ones]. rewrite IHk. unfold one. rewrite solveF_verbose. reflexivity. Qed.

Lemma ones_run k s : sim (fst (runF A B k s)) (ones k s).
Proof.
  induction k; [apply sim_refl|]. rewrite ones_last. cbn [runF]. cbv zeta. destruct (snd (runF A B k s)) eqn:E; [|apply one_iter; exact IHk].
  eapply sim_trans; [|apply one_iter; exact IHk].
  assert (X : exists s0, fst (runF A B k s) = fst (iterF A B s0) /\ snd (iterF A B s0) = true).
  { clear IHk. induction k; [discriminate E|]. cbn [runF] in *. cbv zeta in *. destruct (snd (runF A B k s)) eqn:E2; [auto|]. eauto. }
  destruct X as [s0 [-> X]]. apply iter_stopped. exact X.
Qed.

Lemma ones_solve s : sim (solveF A B s) (ones (Z.to_nat (maxit (sn_o A s))) s).
Proof.
  unfold solveF. eapply sim_trans; [|apply ones_run]. apply sim_sym, sim_final, sim_refl.
Qed.

Variable ps : F -> Prop.
Hypothesis SF : Safe A ps.

Definition okS (s : snap A) : Prop := interior A B ps (sn_pt A s) /\ loud_ok A B s /\ Flag (sn_st A s) <> QP_KKTFAIL.

Lemma one_ok s : okS s -> okS (one s).
Proof.
  intros [H1 [H2 H3]]. unfold one. split; [apply solveF_interior; auto|]. split; [|apply solveF_flag; auto].
  unfold loud_ok in *. rewrite solveF_verbose. exact H2.
Qed.

Lemma singly_ok k : forall q s, At A B q s -> okS s -> exists q' os, singly A k q = Ok q' /\ At A B q' (ones k s) /\ List.length os = k /\
  (forall o, In o os -> maxit o = 1 /\ verbose o = verbose (sn_o A s)) /\ exists codes, run_calls A q (singles A os) = Ok (codes, q').
Proof.
  induction k; intros q s HA [Hi [Hl Hf]].
  - exists q, []. split; [reflexivity|]. split; [exact HA|]. split; [reflexivity|]. split; [intros o []|]. exists []. reflexivity.
  - cbn [singly ones]. set (o1 := (q_options q) <| maxit := 1 |>). 
    assert (Eo : o1 = (sn_o A s) <| maxit := 1 |>) by (unfold o1; rewrite (at_o _ _ _ _ HA); reflexivity).
    assert (HA1 : At A B (q <| q_options := o1 |>) (set_o A s ((sn_o A s) <| maxit := 1 |>))) by (rewrite <- Eo; apply At_set_o; exact HA).
    destruct (proj1 (wp_exists _ _) (QP_SOLVE_ok A B ps _ _ SF HA1 Hi (loud_printable A B (set_o A s _) Hl) Hf)) as [[c q1] [E1 [HA2 _]]]. cbn [snd] in HA2.
    destruct (IHk q1 (one s) HA2 (one_ok s (conj Hi (conj Hl Hf)))) as [q' [os [E2 [HA3 [Ll [Ho [codes E3]]]]]]].
    exists q', (o1 :: os). rewrite E1. cbn [bind]. split; [exact E2|]. split; [exact HA3|]. split; [cbn; congruence|]. split.
    + intros o [<-|Hin]; [split; [reflexivity|rewrite Eo; reflexivity]|]. destruct (Ho o Hin) as [X Y]. split; auto. rewrite Y. unfold one. rewrite solveF_verbose. reflexivity.
    + exists (c :: codes). cbn [singles flat_map app run_calls]. rewrite E1. cbn [bind]. unfold singles in E3. rewrite E3. reflexivity.
Qed.

Lemma sim_result q q' s t : At A B q s -> At A B q' t -> sim s t -> same_result A q q'.
Proof.
  intros [_ [X Y Z S] Ho Hst] [_ [X' Y' Z' S'] Ho' Hst'] [E1 E2 E3]. rewrite E1 in *.
  split; try (eapply arr_ext; eassumption); rewrite ?Ho, ?Ho', ?Hst, ?Hst'; assumption.
Qed.
End Proof.

(** ** C61 *)

(** From any state a session reaches, the loop of k single-step solves returns, for every k, and is a session too. *)
Theorem C61_loop A ps amd u l codes q : Safe A ps -> valid_user amd u -> quiet_calls A u l -> session A amd u l = Ok (codes, q) ->
  forall k, exists q' os codes', singly A k q = Ok q' /\ List.length os = k /\ (forall o, In o os -> maxit o = 1) /\
    quiet_calls A u (l ++ singles A os) /\ session A amd u (l ++ singles A os) = Ok (codes ++ codes', q') /\
    (u_pe u <> 0 \/ verbose (q_options q') <= 0).
Proof.
  intros SF V Hq E1 k. destruct (session_from A ps SF amd u V) as [q0 [B [r [E0 [HS HF]]]]].
  destruct (HF l Hq) as [qa [Ea [HA Hi]]]. rewrite E1 in Ea. injection Ea as Ec <-. set (s := snd (callsF A B (fresh A B r) l)) in *.
  assert (HL : loud_ok A B s).
  { apply callsF_loud; [right; cbn; lia|]. destruct (sd_B _ _ _ _ _ HS) as [Pf [Qf [par EB]]]. rewrite EB. destruct Hq as [H|H]; [left; exact H|right; exact H]. }
  assert (HFl : Flag (sn_st A s) <> QP_KKTFAIL) by (apply callsF_nofail; cbn; discriminate).
  destruct (singly_ok A B ps SF k q s HA (conj Hi (conj HL HFl))) as [q'' [os [G1 [G2 [G3 [G4 [cs G5]]]]]]].
  exists q'', os, cs. split; [exact G1|]. split; [exact G3|]. split; [intros o Ho; apply (G4 o Ho)|]. split.
  { destruct Hq as [H|H]; [left; auto|]. destruct HL as [H'|H'].
    - left. destruct (sd_B _ _ _ _ _ HS) as [Pf [Qf [par EB]]]. rewrite EB in H'. exact H'.
    - right. intros o Ho. apply in_app_or in Ho. destruct Ho as [Ho|Ho]; [auto|]. unfold singles in Ho. apply in_flat_map in Ho. destruct Ho as [o' [Hin [X|[X|[]]]]]; [|discriminate X].
      injection X as ->. rewrite (proj2 (G4 o Hin)). exact H'. }
  split; [rewrite (session_app A amd u l _ _ _ E1), G5; reflexivity|].
  destruct HL as [H'|H']; [left; destruct (sd_B _ _ _ _ _ HS) as [Pf [Qf [par EB]]]; rewrite EB in H'; exact H'|].
  right. rewrite (at_o _ _ _ _ G2), ones_verbose. exact H'.
Qed.

(** One solve with limit maxit and maxit solves with limit 1 leave the same variables, multipliers,
    slacks, centering parameter and statistics.  Only the exit code differs. *)
Theorem C61_single_steps A ps amd u l codes q c q' : Safe A ps -> valid_user amd u -> quiet_calls A u l ->
  session A amd u l = Ok (codes, q) -> session A amd u (l ++ [Solve A]) = Ok (codes ++ [c], q') ->
  exists q'', singly A (Z.to_nat (maxit (q_options q))) q = Ok q'' /\ same_result A q' q''.
Proof.
  intros SF V Hq E1 E2. destruct (session_from A ps SF amd u V) as [q0 [B [r [E0 [HS HF]]]]].
  destruct (HF l Hq) as [qa [Ea [HA Hi]]]. rewrite E1 in Ea. injection Ea as Ec <-.
  assert (Hq2 : quiet_calls A u (l ++ [Solve A])).
  { destruct Hq as [H|H]; [left; auto|right]. intros o Ho. apply in_app_or in Ho. destruct Ho as [Ho|[Ho|[]]]; [auto|discriminate Ho]. }
  destruct (HF _ Hq2) as [qb [Eb [HA2 _]]]. rewrite E2 in Eb. injection Eb as _ <-.
  rewrite callsF_app in HA2. cbn [snd callsF] in HA2. set (s := snd (callsF A B (fresh A B r) l)) in *.
  assert (HL : loud_ok A B s).
  { apply callsF_loud; [right; cbn; lia|]. destruct (sd_B _ _ _ _ _ HS) as [Pf [Qf [par EB]]]. rewrite EB. destruct Hq as [H|H]; [left; exact H|right; exact H]. }
  assert (HFl : Flag (sn_st A s) <> QP_KKTFAIL) by (apply callsF_nofail; cbn; discriminate).
  destruct (singly_ok A B ps SF (Z.to_nat (maxit (q_options q))) q s HA (conj Hi (conj HL HFl))) as [q'' [os [G1 [G2 _]]]].
  exists q''. split; [exact G1|]. eapply sim_result; [exact HA2|exact G2|]. rewrite (at_o _ _ _ _ HA). apply ones_solve.
Qed.

(** ** Case: two iterations on min x^2/2, x >= 1. *)
Definition opt61 : settings (car FA) := (default_settings FA) <| maxit := 2 |>.

Definition check61 (r1 r2 : res (list Z * qp (car FA))) : bool := match r1, r2 with
  | Ok ([], q), Ok ([c], q') => (maxit (q_options q) =? 2) && (c =? QP_MAXIT) && (IterationCount (q_stats q') =? 2)
  | _, _ => false end.
Lemma check61_ok r1 r2 : check61 r1 r2 = true -> exists q q', r1 = Ok ([], q) /\ r2 = Ok ([QP_MAXIT], q') /\ maxit (q_options q) = 2 /\ IterationCount (q_stats q') = 2.
Proof.
  destruct r1 as [[[|a l] q]| |]; try (intros H; discriminate H). destruct r2 as [[[|c [|c2 l2]] q']| |]; try (intros H; discriminate H).
  unfold check61. intros H. apply andb_prop in H. destruct H as [H H3]. apply andb_prop in H. destruct H as [H1 H2].
  apply Z.eqb_eq in H1, H2, H3. subst c. eauto 6.
Qed.

Theorem C61_case : exists q q', valid_user noamd (small FA) /\ quiet_calls FA (small FA) [SetOptions FA opt61] /\
  session FA noamd (small FA) [SetOptions FA opt61] = Ok ([], q) /\ session FA noamd (small FA) ([SetOptions FA opt61] ++ [Solve FA]) = Ok ([] ++ [QP_MAXIT], q') /\
  maxit (q_options q) = 2 /\ IterationCount (q_stats q') = 2.
Proof.
  assert (C : check61 (session FA noamd (small FA) [SetOptions FA opt61]) (session FA noamd (small FA) ([SetOptions FA opt61] ++ [Solve FA])) = true) by (vm_compute; reflexivity).
  destruct (check61_ok _ _ C) as [q [q' [E1 [E2 [E3 E4]]]]]. exists q, q'. split; [apply small_valid|].
  split; [right; intros o [H|[]]; injection H as <-; cbn; lia|]. split; [exact E1|]. split; [exact E2|]. split; assumption.
Qed.

Print Assumptions C61_loop.
Print Assumptions C61_single_steps.
Print Assumptions C61_case.
