(** Property C64: in double precision the slacks and the inequality multipliers stay nonnegative. *)
From Coq Require Import ZArith Reals List Lia Lra Bool.
From RecordUpdate Require Import RecordUpdate.
From Flocq Require Import Core BinarySingleNaN.
From Verif Require Import Res Partial Arith Lists MSparse MLdl Csc SemVec Flat TransposeProofs KktProofs LdlSpec LdlSym LdlNum LdlSolve LdlR LdlFun
  MSolver VecOps Iter SafeInst Setup Session Spec SpecLink QpSpec NewtonR PointR Round RoundLdl Api Demo P2_Kkt P3_Ldl P4_Always P5_Session P6_Codes P14_Round P19_LdlRound P21_Single
  RoundStep P20_StepRound P22_RoundCodes RoundInt.
Import ListNotations.
Open Scope Z_scope.

(** ** Specification *)

(** The slacks and the inequality multipliers of the handle are finite numbers, none of them negative. *)
Definition in_cone (u : user b64) (q : qp b64) : Prop := nonneg_vec (q_s q) (u_m u) /\ nonneg_vec (q_z q) (u_m u).

(** The step that produced [q'] did not overflow, and neither of its lengths is positive but below 2^-1000. *)
Record calm (u : user b64) (q' : qp b64) : Prop := mkCalm {
  cm_s : finite_first (u_m u) (q_s q'); cm_z : finite_first (u_m u) (q_z q');
  cm_p : B2R (alpha_p (q_stats q')) = 0%R \/ (bpow radix2 (-1000) <= B2R (alpha_p (q_stats q')))%R;
  cm_d : B2R (alpha_d (q_stats q')) = 0%R \/ (bpow radix2 (-1000) <= B2R (alpha_d (q_stats q')))%R
}.

(** A step keeps more than one part in 128 of every entry that is not tiny. *)
Definition kept (k : Z) (a a' : arr b64) : Prop := forall i, 0 <= i < k ->
  (bpow radix2 (-1000) <= vec_of a i -> vec_of a i / 128 <= vec_of a' i)%R.

(** Every step among the first [k] iterations after [q] is calm. *)
Definition calm_run (u : user b64) (k : nat) (q : qp b64) : Prop := forall i q1 q2, (i < k)%nat ->
  singly FA i q = Ok q1 -> singly FA (S i) q = Ok q2 -> IterationCount (q_stats q2) <> IterationCount (q_stats q1) -> calm u q2.

(** ** Proof *)

Lemma nonneg_fun (a : arr b64) k f : is_vec a k f -> nonneg_vec a k <-> (forall i, 0 <= i < k -> is_finite (f i) = true /\ (0 <= B2R (f i))%R).
Proof.
  intros [_ H]. split; intros G i Hi.
  - destruct (G i Hi) as [v [Ev Hv]]. rewrite (H i Hi) in Ev. injection Ev as <-. exact Hv.
  - exists (f i). split; auto.
Qed.

Lemma vec_of_fun (a : arr b64) k f i : is_vec a k f -> 0 <= i < k -> vec_of a i = B2R (f i).
Proof. intros [_ H] Hi. unfold vec_of, get. rewrite (H i Hi). reflexivity. Qed.

Section Next.
Variable B : prob b64.
Notation m := (pm B).

Definition cone (pt : point FA) : Prop :=
  (forall i, 0 <= i < m -> is_finite (ptS FA pt i) = true /\ (0 <= B2R (ptS FA pt i))%R) /\
  (forall i, 0 <= i < m -> is_finite (ptZ FA pt i) = true /\ (0 <= B2R (ptZ FA pt i))%R).

Definition fin_pt (pt : point FA) : Prop :=
  (forall i, 0 <= i < m -> is_finite (ptS FA pt i) = true) /\ (forall i, 0 <= i < m -> is_finite (ptZ FA pt i) = true).

Lemma start_cone : 1 <= m -> fin_pt (initF FA B) -> cone (initF FA B).
Proof.
  intros Hm [F1 F2]. split; intros i Hi.
  - split; [apply F1; auto|]. apply (start_s (initZi FA B) m i Hm Hi). apply (F1 i Hi).
  - split; [apply F2; auto|]. apply (start_z (initZi FA B) m i Hm Hi). apply (F2 i Hi).
Qed.

Lemma next_cone pt sg : 0 <= m -> cone pt -> fin_pt (nextF FA B pt sg) -> calm_length (apF FA B pt sg) -> calm_length (adF FA B pt sg) ->
  cone (nextF FA B pt sg) /\
  (forall i, 0 <= i < m -> (bpow radix2 (-1000) <= B2R (ptS FA pt i) -> B2R (ptS FA pt i) / 128 <= B2R (ptS FA (nextF FA B pt sg) i))%R) /\
  (forall i, 0 <= i < m -> (bpow radix2 (-1000) <= B2R (ptZ FA pt i) -> B2R (ptZ FA pt i) / 128 <= B2R (ptZ FA (nextF FA B pt sg) i))%R).
Proof.
  intros Hm [C1 C2] [F1 F2] Hp Hd.
  assert (US : forall i, 0 <= i < m -> (0 <= B2R (ptS FA (nextF FA B pt sg) i))%R /\
     (bpow radix2 (-1000) <= B2R (ptS FA pt i) -> B2R (ptS FA pt i) / 128 <= B2R (ptS FA (nextF FA B pt sg) i))%R).
  { intros i Hi. exact (update_ok (ptS FA pt) (dirS FA B pt (dsFin FA B pt sg)) m i Hm C1 Hi Hp (F1 i Hi)). }
  assert (UZ : forall i, 0 <= i < m -> (0 <= B2R (ptZ FA (nextF FA B pt sg) i))%R /\
     (bpow radix2 (-1000) <= B2R (ptZ FA pt i) -> B2R (ptZ FA pt i) / 128 <= B2R (ptZ FA (nextF FA B pt sg) i))%R).
  { intros i Hi. exact (update_ok (ptZ FA pt) (dirZ FA B pt (dsFin FA B pt sg)) m i Hm C2 Hi Hd (F2 i Hi)). }
  split; [split|split]; intros i Hi; [split; [auto|apply US; auto]|split; [auto|apply UZ; auto]|apply US; auto|apply UZ; auto].
Qed.
End Next.

Lemma cone_handle B q pt (u : user b64) : pm B = u_m u -> Pt FA B q pt -> in_cone u q <-> cone B pt.
Proof.
  intros Em [_ _ Hz Hs]. unfold in_cone, cone. rewrite <- Em.
  rewrite (nonneg_fun _ _ _ Hs), (nonneg_fun _ _ _ Hz). reflexivity.
Qed.

Lemma fin_handle B q pt (u : user b64) : pm B = u_m u -> Pt FA B q pt -> finite_first (u_m u) (q_s q) -> finite_first (u_m u) (q_z q) -> fin_pt B pt.
Proof.
  intros Em [_ _ Hz Hs] F1 F2. rewrite <- Em in *. split; [exact (fin_vec _ _ _ Hs F1)|exact (fin_vec _ _ _ Hz F2)].
Qed.

Lemma started_m (u : user b64) B q r : Started FA u B q r -> pm B = u_m u.
Proof. intros HS. destruct (sd_B _ _ _ _ _ HS) as [Pf [Qf [par ->]]]. reflexivity. Qed.

(** ** C64 *)

(** The starting point: nonnegative unless it overflows. *)
Theorem C64_start amd u l codes q : valid_user amd u -> quiet_calls FA u l -> (forall c, In c l -> c <> Solve FA) ->
  session FA amd u l = Ok (codes, q) -> finite_first (u_m u) (q_s q) -> finite_first (u_m u) (q_z q) -> in_cone u q.
Proof.
  intros V Hq Hl E Fs Fz. destruct (session_from FA _ (Safe_total FA FA_total) amd u V) as [q0 [B [r [E0 [HS HF]]]]].
  destruct (HF l Hq) as [qa [Ea [HA Hi]]]. rewrite E in Ea. injection Ea as _ <-. pose proof (started_m _ _ _ _ HS) as Em.
  assert (Ept : forall s, sn_pt FA (snd (callsF FA B s l)) = sn_pt FA s).
  { clear -Hl. induction l as [|[o|] l IH]; intros s; cbn [callsF snd]; [reflexivity| |exfalso; apply (Hl (Solve FA)); [left; reflexivity|reflexivity]].
    rewrite IH; [reflexivity|]. intros c Hc. apply Hl. right. exact Hc. }
  pose proof (at_pt _ _ _ _ HA) as HP. rewrite Ept in HP. cbn [fresh sn_pt] in HP.
  apply (cone_handle B q _ u Em HP). apply start_cone; [exact (eq_ind_r (fun k => 1 <= k) (vu_m _ _ V) Em)|]. exact (fin_handle B q _ u Em HP Fs Fz).
Qed.

(** One step. *)
Theorem C64_step amd u l codes q c q' : valid_user amd u -> one_step amd u l codes q c q' -> in_cone u q -> calm u q' ->
  in_cone u q' /\ kept (u_m u) (q_s q) (q_s q') /\ kept (u_m u) (q_z q) (q_z q').
Proof.
  intros V H1 HC [Fs Fz Hp Hd]. destruct (step_facts amd u l codes q c q' V H1) as [q0 [B [r [pt [sg [HS [HB [HPt [HSt [HPt' [Eap Ead]]]]]]]]]]].
  pose proof (started_m _ _ _ _ HS) as Em. rewrite Eap in Hp. rewrite Ead in Hd.
  apply (cone_handle B q _ u Em HPt) in HC.
  assert (Hm : 0 <= pm B) by (apply Z.le_trans with 1; [lia|exact (eq_ind_r (fun k => 1 <= k) (vu_m _ _ V) Em)]).
  destruct (next_cone B pt sg Hm HC (fin_handle B q' _ u Em HPt' Fs Fz) Hp Hd) as [G1 [G2 G3]].
  split; [apply (cone_handle B q' _ u Em HPt'); exact G1|]. destruct HPt as [_ _ Hz Hs], HPt' as [_ _ Hz' Hs'].
  split; intros i Hi; rewrite <- Em in Hi.
  - pose proof (vec_of_fun _ _ _ i Hs Hi) as X1. pose proof (vec_of_fun _ _ _ i Hs' Hi) as X2. intros Hb. change (car FA) with b64 in *.
    rewrite X2, X1. rewrite X1 in Hb. exact (G2 i Hi Hb).
  - pose proof (vec_of_fun _ _ _ i Hz Hi) as X1. pose proof (vec_of_fun _ _ _ i Hz' Hi) as X2. intros Hb. change (car FA) with b64 in *.
    rewrite X2, X1. rewrite X1 in Hb. exact (G3 i Hi Hb).
Qed.

(** Any number of iterations, from any state of a session. *)
Theorem C64_iterations amd u l codes q k q' : valid_user amd u -> quiet_calls FA u l -> session FA amd u l = Ok (codes, q) ->
  in_cone u q -> calm_run u k q -> singly FA k q = Ok q' -> in_cone u q'.
Proof.
  intros V Hq E HC. destruct (session_from FA _ (Safe_total FA FA_total) amd u V) as [q0 [B [r [E0 [HS HF]]]]].
  destruct (HF l Hq) as [qa [Ea [HA Hi]]]. rewrite E in Ea. injection Ea as _ <-. pose proof (started_m _ _ _ _ HS) as Em.
  set (s := snd (callsF FA B (fresh FA B r) l)) in *.
  assert (HL : loud_ok FA B s).
  { apply callsF_loud; [right; cbn; lia|]. destruct (sd_B _ _ _ _ _ HS) as [Pf [Qf [par EB]]]. rewrite EB. destruct Hq as [H|H]; [left; exact H|right; exact H]. }
  assert (HFl : Flag (sn_st FA s) <> QP_KKTFAIL) by (apply callsF_nofail; cbn; discriminate).
  assert (Hm : 0 <= pm B) by (apply Z.le_trans with 1; [lia|exact (eq_ind_r (fun k => 1 <= k) (vu_m _ _ V) Em)]).
  assert (St : forall i, exists qi, singly FA i q = Ok qi /\ At FA B qi (ones FA B i s)).
  { intros i. destruct (singly_ok FA B _ (Safe_total FA FA_total) i q s HA (conj Hi (conj HL HFl))) as [qi [os [G1 [G2 _]]]]. eauto. }
  revert q'. induction k; intros q' Hr E'; [cbn [singly] in E'; injection E' as <-; exact HC|].
  destruct (St k) as [q1 [E1 A1]]. destruct (St (S k)) as [q2 [E2 A2]]. rewrite E2 in E'. injection E' as <-.
  assert (C1 : in_cone u q1).
  { apply IHk; auto. intros i qa qb Hlt. apply Hr. lia. }
  apply (cone_handle B q1 _ u Em (at_pt _ _ _ _ A1)) in C1. apply (cone_handle B q2 _ u Em (at_pt _ _ _ _ A2)).
  specialize (Hr k q1 q2 ltac:(lia) E1 E2).
  pose proof (at_st _ _ _ _ A1) as S1. pose proof (at_st _ _ _ _ A2) as S2. pose proof (at_pt _ _ _ _ A2) as P2.
  rewrite ones_last in *. set (t := ones FA B k s) in *.
  set (t1 := set_o FA t ((sn_o FA t) <| maxit := 1 |>)) in *.
  assert (Es : one FA B t = finalF FA (fst (iterF FA B t1))) by (unfold one, solveF; reflexivity).
  rewrite Es in *. rewrite finalF_pt in *. unfold iterF in *. change (sn_pt FA t1) with (sn_pt FA t) in *.
  destruct (stopF FA B (sn_pt FA t) (sn_o FA t1)) eqn:Stop; cbn [fst sn_pt] in *; [exact C1|].
  assert (Hcnt : IterationCount (q_stats q2) <> IterationCount (q_stats q1)).
  { assert (X1 : IterationCount (q_stats q1) = IterationCount (sn_st FA t)) by exact (f_equal (IterationCount (F:=b64)) S1).
    assert (X2 : IterationCount (q_stats q2) = IterationCount (sn_st FA t) + 1).
    { refine (eq_trans (f_equal (IterationCount (F:=b64)) S2) _). unfold finalF. destruct (_ =? _); reflexivity. }
    lia. }
  destruct (Hr Hcnt) as [Fs Fz Hp Hd].
  apply (next_cone B (sn_pt FA t) (sigma (sn_o FA t1)) Hm C1 (fin_handle B q2 _ u Em P2 Fs Fz)).
  - assert (X : alpha_p (q_stats q2) = apF FA B (sn_pt FA t) (sigma (sn_o FA t1))).
    { refine (eq_trans (f_equal (alpha_p (F:=b64)) S2) _). unfold finalF. destruct (_ =? _); reflexivity. }
    exact (eq_ind _ calm_length Hp _ X).
  - assert (X : alpha_d (q_stats q2) = adF FA B (sn_pt FA t) (sigma (sn_o FA t1))).
    { refine (eq_trans (f_equal (alpha_d (F:=b64)) S2) _). unfold finalF. destruct (_ =? _); reflexivity. }
    exact (eq_ind _ calm_length Hd _ X).
Qed.

(** A whole solve. *)
Theorem C64_solve amd u l codes q c q' : valid_user amd u -> quiet_calls FA u l -> session FA amd u l = Ok (codes, q) ->
  in_cone u q -> calm_run u (Z.to_nat (maxit (q_options q))) q -> session FA amd u (l ++ [Solve FA]) = Ok (codes ++ [c], q') -> in_cone u q'.
Proof.
  intros V Hq E HC Hr E2. destruct (C61_single_steps FA _ amd u l codes q c q' (Safe_total FA FA_total) V Hq E E2) as [q'' [E3 HR]].
  pose proof (C64_iterations amd u l codes q _ q'' V Hq E HC Hr E3) as [G1 G2].
  split; [exact (eq_ind _ (fun a => nonneg_vec a (u_m u)) G1 _ (sr_s _ _ _ HR))|exact (eq_ind _ (fun a => nonneg_vec a (u_m u)) G2 _ (sr_z _ _ _ HR))].
Qed.

(** Exit code 0 after such a solve: how far the point is from feasible and from optimal (properties C54 and C62),
    with no assumption on the signs of the returned slacks and multipliers. *)
Theorem C64_near_optimal amd u l codes q0 q x' : valid_user amd u -> quiet_calls FA u l -> new_zero amd u l codes q0 q -> operations u <= 2 ^ 51 ->
  is_finite (reltol (q_options q0)) = true -> is_finite (abstol (q_options q0)) = true ->
  in_cone u q0 -> calm_run u (Z.to_nat (maxit (q_options q0))) q0 ->
  let Q := exact_qp u in let W := size_qp u in let t := met u (B2R (reltol (q_options q0))) in
  let x := vec_of (q_x q) in let y := vec_of (q_y q) in let z := vec_of (q_z q) in let s := vec_of (q_s q) in
  let e_dual := (t + gam u * Euclid (w_dual W x y z) (u_n u))%R in
  let e_in := (t + gam u * Euclid (w_in W x s) (u_m u))%R in
  let e_eq := (if u_pe u =? 0 then 0 else t + gam u * Euclid (w_eq W x) (u_pe u))%R in
  (forall i, 0 <= i < u_m u -> (Sum (u_n u) (fun j => dG Q i j * x j) <= dh Q i + e_in)%R) /\
  (forall i, 0 <= i < u_pe u -> (Rabs (db Q i - Sum (u_n u) (fun j => dA Q i j * x j)) <= e_eq)%R) /\
  (symmetric Q -> psd_on Q -> feasible Q x' ->
   (objective Q x - objective Q x' <= e_dual * Euclid (fun i => x' i - x i) (u_n u) + e_eq * Euclid y (u_pe u) + e_in * Euclid z (u_m u)
     + IZR (u_m u) * (B2R (abstol (q_options q0)) + bpow radix2 (-510)) + gam u * Sum (u_m u) (fun i => s i * z i))%R).
Proof.
  intros V Hq HZ HK Fr Fa HC Hr. cbv zeta. destruct HZ as [Z1 Z2 Z3 Z4].
  destruct (C64_solve amd u l codes q0 0 q V Hq Z2 HC Hr Z3) as [Ns Nz].
  exact (C62_near_optimal amd u l codes q0 q V (mkNewZero amd u l codes q0 q Z1 Z2 Z3 Z4) HK Fr Fa x' Ns Nz).
Qed.

(** Without the bound on the lengths a slack can become negative: from s = 3 * 2^-53 and direction -2^1023,
    findsteplength and updatevariables as QP_SOLVE calls them (src/qpSWIFT.c) give a negative s. *)
Definition two_to (e : Z) : b64 := binary_normalize 53 1024 prec64 emax64 mode_NE 1 e false.
Definition move_one (v d : b64) : res (arr b64) :=
  '(a, _) <- findsteplength FA [Some v] [Some d] [Some (f1 FA)] [Some (f1 FA)] 1 ;;
  updatevariables FA [Some v] [Some d] (MIN FA (fmul FA (fdec FA 99 100) a) (f1 FA)) 1.
Definition neg_b (x : b64) : bool := match x with B754_finite true _ _ _ => true | _ => false end.
Lemma tiny_run : match move_one (fmul FA (fofZ FA 3) (two_to (-53))) (fopp FA (two_to 1023)) with Ok [Some v] => neg_b v | _ => false end = true.
Proof. vm_compute. reflexivity. Qed.
Theorem C64_tiny_length : exists v d v', pos_b v = true /\ is_finite d = true /\ move_one v d = Ok [Some v'] /\ (B2R v' < 0)%R.
Proof.
  pose proof tiny_run as H. destruct (move_one _ _) as [[|[v'|] [|]]| |] eqn:E; try discriminate H.
  eexists _, _, v'. split; [|split; [|split; [exact E|]]]; [vm_compute; reflexivity..|].
  destruct v' as [s|s| |[] mx ex Hx]; try discriminate H. apply F2R_lt_0. reflexivity.
Qed.

(** ** Case: minimise x^2/2 subject to x >= 1; reltol and abstol are 1/100, at most 8 iterations. *)
Definition opt64 : settings (car FA) := (default_settings FA) <| maxit := 8 |> <| reltol := fdec FA 1 100 |> <| abstol := fdec FA 1 100 |>.

Definition len_b (x : b64) : bool := match x with B754_zero _ => true | B754_finite false _ e _ => -1000 <=? e | _ => false end.
Definition fin1 (a : arr b64) : bool := match rd a 0 with Ok v => is_finite v | _ => false end.
Definition calm_b (q q' : qp b64) : bool := (IterationCount (q_stats q') =? IterationCount (q_stats q)) ||
  fin1 (q_s q') && fin1 (q_z q') && len_b (alpha_p (q_stats q')) && len_b (alpha_d (q_stats q')).
Fixpoint calm_all (k : nat) (q : qp b64) : bool := match k with
  | O => true
  | S k => match QP_SOLVE FA (q <| q_options := (q_options q) <| maxit := 1 |> |>) with Ok (_, q1) => calm_b q q1 && calm_all k q1 | _ => false end end.
Definition check64 (r1 r2 : res (list Z * qp b64)) : bool := match r1, r2 with
  | Ok (l1, q), Ok (l2, q') => match l1, l2 with [], [c] => (c =? 0) | _, _ => false end && (maxit (q_options q) =? 8) && (2 <=? IterationCount (q_stats q')) &&
      fin1 (q_s q) && fin1 (q_z q) && is_finite (reltol (q_options q)) && is_finite (abstol (q_options q)) && calm_all 8 q
  | _, _ => false end.
Notation before64 := (session FA noamd (small FA) [SetOptions FA opt64]).
Notation run64 := (session FA noamd (small FA) ([SetOptions FA opt64] ++ [Solve FA])).
Lemma run64_ok : check64 before64 run64 = true.
Proof. vm_compute. reflexivity. Qed.

Lemma len_b_ok x : len_b x = true -> B2R x = 0%R \/ (bpow radix2 (-1000) <= B2R x)%R.
Proof.
  destruct x as [s|s| |[] mx ex Hx]; cbn [len_b]; intros H; try discriminate H; [left; reflexivity|right].
  apply Z.leb_le in H. cbn [B2R]. unfold F2R. cbn [Fnum Fexp cond_Zopp]. apply Rle_trans with (bpow radix2 ex); [apply bpow_le; exact H|].
  rewrite <- (Rmult_1_l (bpow radix2 ex)) at 1. apply Rmult_le_compat_r; [apply bpow_ge_0|]. apply IZR_le. lia.
Qed.
Lemma fin1_ok a : fin1 a = true -> finite_first 1 a.
Proof. unfold fin1. intros H i v Hi E. replace i with 0 in E by lia. rewrite E in H. exact H. Qed.
Lemma calm_all_ok (u : user b64) k : u_m u = 1 -> forall q, calm_all k q = true -> calm_run u k q.
Proof.
  intros Em. induction k; intros q H i q1 q2 Hlt E1 E2 Hc; [lia|]. cbn [calm_all] in H.
  cbn [singly] in E2. change (car FA) with b64 in *. destruct (QP_SOLVE FA _) as [[c qn]| |] eqn:Es; try discriminate H. cbn [bind] in E2.
  apply andb_prop in H. destruct H as [H Hk]. destruct i as [|i].
  - cbn [singly] in E1, E2. injection E1 as <-. injection E2 as <-. unfold calm_b in H. apply orb_prop in H. destruct H as [H|H]; [apply Z.eqb_eq in H; congruence|].
    apply andb_prop in H. destruct H as [H H4]. apply andb_prop in H. destruct H as [H H3]. apply andb_prop in H. destruct H as [H1 H2].
    split; rewrite ?Em; auto using fin1_ok, len_b_ok.
  - cbn [singly] in E1. change (car FA) with b64 in *. rewrite Es in E1. cbn [bind] in E1. apply (IHk qn Hk i q1 q2); auto. lia.
Qed.

Theorem C64_case : exists q q', valid_user noamd (small FA) /\ quiet_calls FA (small FA) [SetOptions FA opt64] /\
  new_zero noamd (small FA) [SetOptions FA opt64] [] q q' /\ operations (small FA) <= 2 ^ 51 /\
  is_finite (reltol (q_options q)) = true /\ is_finite (abstol (q_options q)) = true /\ 2 <= IterationCount (q_stats q') /\
  in_cone (small FA) q /\ calm_run (small FA) (Z.to_nat (maxit (q_options q))) q /\ in_cone (small FA) q'.
Proof.
  pose proof run64_ok as C. destruct before64 as [[l1 q]| |] eqn:E1; [|discriminate C..]. destruct run64 as [[l2 q']| |] eqn:E2; [|discriminate C..].
  unfold check64 in C. repeat (apply andb_prop in C; destruct C as [C ?]).
  destruct l1 as [|]; [|discriminate C]. destruct l2 as [|c [|]]; try discriminate C. apply Z.eqb_eq in C. subst c.
  assert (Hq : quiet_calls FA (small FA) [SetOptions FA opt64]) by (right; intros o [Ho|[]]; injection Ho as <-; cbn; lia).
  assert (Hc : in_cone (small FA) q).
  { apply (C64_start noamd (small FA) [SetOptions FA opt64] [] q (small_valid FA noamd) Hq); auto using fin1_ok. intros c [<-|[]]. discriminate. }
  assert (Hm : maxit (q_options q) = 8) by (apply Z.eqb_eq; assumption).
  assert (Hr : calm_run (small FA) (Z.to_nat (maxit (q_options q))) q) by (rewrite Hm; apply calm_all_ok; [reflexivity|assumption]).
  exists q, q'. split; [apply small_valid|]. split; [exact Hq|]. split.
  { split; [right; intros o [Ho|[Ho|[]]]; [injection Ho as <-; cbn; lia|discriminate Ho]|exact E1|exact E2|cbn; lia]. }
  split; [vm_compute; discriminate|]. do 2 (split; [assumption|]). split; [apply Z.leb_le; assumption|].
  split; [exact Hc|]. split; [exact Hr|]. exact (C64_solve noamd (small FA) _ [] q 0 q' (small_valid FA noamd) Hq E1 Hc Hr E2).
Qed.

Print Assumptions C64_start.
Print Assumptions C64_step.
Print Assumptions C64_iterations.
Print Assumptions C64_solve.
Print Assumptions C64_near_optimal.
Print Assumptions C64_tiny_length.
Print Assumptions C64_case.
