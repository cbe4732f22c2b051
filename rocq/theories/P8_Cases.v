(** Cases for the theorems of P8_Problem. *)
From Coq Require Import ZArith Reals List Lia Lra Bool.
From RecordUpdate Require Import RecordUpdate.
From Verif Require Import Res Arith Lists MSparse Csc MSolver QpSpec Api Demo PointR P5_Session P6_Codes StepSpec StepFacts P2_Kkt SafeInst LdlR VecOps Spec Session
  P7_Step StepUniq QpFacts P8_Problem.
Import ListNotations.
Open Scope Z_scope.

Lemma Sum0 f : Sum 0 f = 0%R. Proof. reflexivity. Qed.
Lemma Sum1 f : Sum 1 f = f 0. Proof. change (f 0%Z + 0 = f 0%Z)%R. ring. Qed.
Lemma Sum2 f : Sum 2 f = (f 0%Z + f 1%Z)%R.
Proof. change (f 0%Z + (f 1%Z + 0) = f 0%Z + f 1%Z)%R. ring. Qed.
Lemma Euclid1 f : Euclid f 1 = Rabs (f 0).
Proof. unfold Euclid. rewrite Sum1. change (sqrt (Rsqr (f 0)) = Rabs (f 0)). apply sqrt_Rsqr_abs. Qed.

(** ** The problem of [natural]: minimise x^2/2 subject to x >= 1. *)
Notation Qs := (user_qp natural).

Lemma Qs_P : dP Qs 0 0 = 1%R. Proof. cbv - [Rplus IZR]. lra. Qed.
Lemma Qs_G : dG Qs 0 0 = (-1)%R. Proof. cbv - [Rplus IZR Ropp]. lra. Qed.
Lemma Qs_c : dc Qs 0 = 0%R. Proof. cbv - [Rplus IZR Ropp]. lra. Qed.
Lemma Qs_h : dh Qs 0 = (-1)%R. Proof. cbv - [Rplus IZR Ropp]. lra. Qed.
Lemma Qs_sym : symmetric Qs.
Proof. intros i j Hi Hj. change (dn Qs) with 1 in *. enum i. enum j. reflexivity. Qed.

(** Setup starts at x = 1/2, s = 1, z = 1/2. *)
Lemma small_start v e : (forall a, 0 <= a < 2 -> e a = 0%R) -> start_point Qs e v ->
  vx v 0 = (1 / 2)%R /\ vs v 0 = 1%R /\ vz v 0 = (1 / 2)%R.
Proof.
  intros He [[t [H1 [_ H3]]] [a [[_ [i [Hi Ea]]] Hs]] [b [[_ [j [Hj Eb]]] Hz]]].
  change (dn Qs) with 1 in *. change (dm Qs) with 1 in *. change (dp Qs) with 0 in *. enum i. enum j.
  specialize (H1 0 ltac:(lia)). specialize (H3 0 ltac:(lia)). specialize (Hs 0 ltac:(lia)). specialize (Hz 0 ltac:(lia)).
  change (1 + 0 + 0) with 1 in H3. rewrite !He in * by lia. unfold slack in *. change (dn Qs) with 1 in *.
  rewrite ?Sum0, ?Sum1, ?Qs_P, ?Qs_G, ?Qs_c, ?Qs_h in *.
  assert (X : vx v 0 = (1 / 2)%R) by lra. rewrite X in *. split; auto. subst a b.
  match type of Hs with context[Rlt_dec ?x ?y] => destruct (Rlt_dec x y) end;
  match type of Hz with context[Rlt_dec ?x ?y] => destruct (Rlt_dec x y) end; lra.
Qed.

Lemma matrix2 w a c : 0 <= a < 2 -> 0 <= c < 2 ->
  kkt_matrix Qs w a c = (if a =? 0 then (if c =? 0 then 1 else -1) else if c =? 0 then -1 else - w 0%Z)%R.
Proof. intros Ha Hc. enum a; enum c; cbv - [Rdiv Ropp Rplus Rmult IZR]; try lra; reflexivity. Qed.

Lemma forward_regular w ord : (0 < w 0%Z)%R -> (forall i, 0 <= i < 2 -> ord i = i) -> regular_order 2 (kkt_matrix Qs w) ord.
Proof.
  intros Hw Ho. exists (fun i j => if i =? j then 1%R else if j <? i then (-1)%R else 0%R), (fun j => if j =? 0 then 1%R else (- w 0%Z - 1)%R).
  split; [|split; [|split]].
  - intros i Hi. rewrite Z.eqb_refl. reflexivity.
  - intros i j Hi Hj. destruct (Z.eqb_spec i j); [lia|]. destruct (Z.ltb_spec j i); [lia|]. reflexivity.
  - intros i j Hi Hj. rewrite !Ho, matrix2 by auto. rewrite Sum2. enum i; enum j; cbn [Z.eqb Z.ltb Z.compare Pos.eqb]; ring.
  - intros j Hj. enum j; cbn [Z.eqb]; [rewrite Rabs_pos_eq; lra|rewrite Rabs_left; lra].
Qed.

Lemma reverse_regular w ord : (1 / 100000000000000 < w 0%Z)%R -> (forall i, 0 <= i < 2 -> ord i = 1 - i) ->
  regular_order 2 (kkt_matrix Qs w) ord.
Proof.
  intros Hw Ho. exists (fun i j => if i =? j then 1%R else if j <? i then (/ w 0%Z)%R else 0%R),
    (fun j => if j =? 0 then (- w 0%Z)%R else (1 + / w 0%Z)%R).
  split; [|split; [|split]].
  - intros i Hi. rewrite Z.eqb_refl. reflexivity.
  - intros i j Hi Hj. destruct (Z.eqb_spec i j); [lia|]. destruct (Z.ltb_spec j i); [lia|]. reflexivity.
  - intros i j Hi Hj. rewrite !Ho, matrix2 by lia. rewrite Sum2.
    change (0 =? 1) with false. enum i; enum j; change (1 - 0) with 1; change (1 - 1) with 0; cbn [Z.eqb Z.ltb Z.compare Pos.eqb Pos.compare Pos.compare_cont]; field; lra.
  - assert (0 < / w 0%Z)%R by (apply Rinv_0_lt_compat; lra).
    intros j Hj. enum j; cbn [Z.eqb]; [rewrite Rabs_left; lra|rewrite Rabs_pos_eq; lra].
Qed.

(** The order in use is the one given. *)
Lemma order_given amd u P q : valid_user amd u -> u_perm u = Some P -> session RA amd u [] = Ok ([], q) ->
  forall i, order_in q i = get 0 P i.
Proof.
  intros V HP E i. unfold session in E. destruct (setup RA amd u) as [q1| |] eqn:Eq; try discriminate E. cbn in E. injection E as <-.
  destruct (setup_started RA amd u q1 div_ok_R V Eq) as [B [r HSt]]. pose proof (sd_user _ _ _ _ _ HSt) as EP.
  rewrite HP in EP. destruct EP as [EP _]. unfold order_in. cbn [car RA] in *. rewrite EP. reflexivity.
Qed.

(** Setup of either order is regular. *)
Lemma start_values amd u P f q : valid_user amd u -> covered u -> user_qp u = Qs -> u_perm u = Some P -> u_N u = 2 ->
  (forall i, 0 <= i < 2 -> get 0 P i = f i) -> regular_order 2 (kkt_matrix Qs (fun _ => 1%R)) f ->
  session RA amd u [] = Ok ([], q) ->
  regular_order 2 (kkt_matrix Qs (fun _ => 1%R)) (order_in q) /\ hx q 0 = (1 / 2)%R /\ hs q 0 = 1%R /\ hz q 0 = (1 / 2)%R.
Proof.
  intros V Hc EQ HP HN Hf HR E. pose proof (order_given amd u P q V HP E) as HO.
  destruct (C47_start_point amd u V Hc ltac:(rewrite EQ; apply Qs_sym)) as [q1 [E1 [O1 [_ [_ [e [[_ He] HSt]]]]]]].
  rewrite E in E1. injection E1 as <-.
  assert (HR' : regular_order 2 (kkt_matrix Qs (fun _ => 1%R)) (order_in q)).
  { assert (Ho : forall i, 0 <= i < 2 -> order_in q i = f i) by (intros i Hi; rewrite HO; apply Hf; auto).
    eapply regular_order_ext; [| | |exact HR]; [intros i Hi; symmetry; auto| |reflexivity].
    intros i Hi. rewrite <- Ho by auto. rewrite <- HN. apply O1. rewrite HN. auto. }
  split; [exact HR'|]. rewrite EQ in HSt, He. apply (small_start (vars_of q) e); [|exact HSt].
  intros a Ha. apply He; [exact HR'|exact Ha].
Qed.

Definition lenient : settings R := (default_settings RA) <| maxit := 1 |> <| reltol := 100%R |> <| abstol := 100%R |>.

Lemma quiet_small u o : verbose o = 0 -> quiet_calls RA u [SetOptions RA o; Solve RA].
Proof. intros Hv. right. intros o' [E|[E|[]]]; [injection E as <-; lia|discriminate E]. Qed.

Lemma only_solve (o : settings R) l1 l2 : [SetOptions RA o; Solve RA] = l1 ++ Solve RA :: l2 -> l1 = [SetOptions RA o].
Proof.
  destruct l1 as [|a [|b l1]]; intros H; try discriminate H; [injection H as -> _; reflexivity|].
  injection H as _ _ H. destruct l1; discriminate H.
Qed.

(** C30 applies to [natural] and [small], which differ in the elimination order, and one iteration is made. *)
Lemma one_regular amd u P f : valid_user amd u -> covered u -> user_qp u = Qs -> u_perm u = Some P -> u_N u = 2 ->
  (forall i, 0 <= i < 2 -> get 0 P i = f i) ->
  (forall w, (1 / 100000000000000 < w 0%Z)%R -> regular_order 2 (kkt_matrix Qs w) f) ->
  regular_session amd u [SetOptions RA one_iteration; Solve RA].
Proof.
  intros V Hc EQ HP HN Hf HR. destruct (C47_start_point amd u V Hc ltac:(rewrite EQ; apply Qs_sym)) as [q0 [E0 [O0 _]]].
  destruct (start_values amd u P f q0 V Hc EQ HP HN Hf ltac:(apply HR; lra) E0) as [S0 [S1 [S2 S3]]].
  split.
  - intros codes q E. rewrite E0 in E. injection E as <- <-. rewrite HN, EQ. exact S0.
  - intros l1 l2 q c q' k V0 sg ap ad E HT i Hi. apply only_solve in E. subst l1. destruct HT as [cs [F1 [F2 M]]].
    assert (Hq : quiet_calls RA u [SetOptions RA one_iteration]) by (right; intros o [E|[]]; injection E as <-; cbn; lia).
    destruct (session_set RA amd u [] one_iteration cs q F1) as [q1 [G1 Eq]]. rewrite E0 in G1. injection G1 as <- <-.
    pose proof (sm_limit _ _ _ _ _ _ _ _ _ M) as HL.
    assert (Eo : @q_options R q = one_iteration) by (rewrite Eq; reflexivity). rewrite Eo in HL. cbn in HL.
    assert (i = O) by lia. subst i. unfold regular_at. rewrite EQ. change (dn Qs + dp Qs + dm Qs) with 2.
    destruct (sm_from _ _ _ _ _ _ _ _ _ M) as [_ _ Z0 Z1]. rewrite EQ in Z0, Z1.
    assert (Ho : forall i, 0 <= i < 2 -> order_in q i = f i).
    { intros i Hii. rewrite <- Hf by auto. rewrite <- (order_given amd u P q0 V HP E0 i). rewrite Eq. reflexivity. }
    eapply regular_order_ext with (ord := f) (K := kkt_matrix Qs (fun i => (vs (V0 O) i / vz (V0 O) i)%R)).
    + intros j Hj. symmetry. auto.
    + intros j Hj. rewrite <- Hf by auto. rewrite <- (order_given amd u P q0 V HP E0 j). rewrite <- HN. apply O0. rewrite HN. auto.
    + reflexivity.
    + apply HR. rewrite (Z0 0), (Z1 0) by (cbn; lia). cbn [vars_of vs vz].
      assert (Hh : hs q 0 = hs q0 0 /\ hz q 0 = hz q0 0) by (rewrite Eq; split; reflexivity). destruct Hh as [-> ->]. rewrite S2, S3. lra.
Qed.

Example C30_case amd : regular_session amd natural [SetOptions RA one_iteration; Solve RA] /\
  regular_session amd (small RA) [SetOptions RA one_iteration; Solve RA] /\ same_qp (user_qp natural) (user_qp (small RA)).
Proof.
  split; [|split].
  - apply (one_regular amd natural (zs [0; 1]) (fun i => i)); auto.
    + apply natural_valid.
    + exact (small_covered RA).
    + intros i Hi. enum i; reflexivity.
    + intros w Hw. apply forward_regular; auto. lra.
  - apply (one_regular amd (small RA) (zs [1; 0]) (fun i => 1 - i)); auto.
    + exact (small_valid RA amd).
    + exact (small_covered RA).
    + intros i Hi. enum i; reflexivity.
    + intros w Hw. apply reverse_regular; auto.
  - split; reflexivity.
Qed.

(** C15, C16: with lenient tolerances the starting point is reported optimal. *)
Example C15_C16_case amd : exists q, valid_user amd natural /\ quiet_calls RA natural [SetOptions RA lenient; Solve RA] /\
  session RA amd natural [SetOptions RA lenient; Solve RA] = Ok ([0], q).
Proof.
  pose proof (natural_valid amd) as V. pose proof (small_covered RA : covered natural) as Hc.
  assert (Hq : quiet_calls RA natural ([SetOptions RA lenient] ++ [Solve RA])) by (apply quiet_small; reflexivity).
  destruct (exact_trace amd natural _ V Hc Qs_sym Hq) as [q [c [q' [k [V0 [sg [ap [ad [cs [F1 [F2 M]]]]]]]]]]].
  destruct (session_set RA amd natural [] lenient cs q F1) as [q0 [E0 Eq]].
  destruct (C47_start_point amd natural V Hc Qs_sym) as [q1 [E1 [_ [_ [T1 _]]]]]. rewrite E0 in E1. injection E1 as -> <-.
  destruct (start_values amd natural (zs [0; 1]) (fun i => i) q0 V Hc eq_refl eq_refl eq_refl) as [_ [X0 [X1 X2]]]; auto.
  { intros i Hi. enum i; reflexivity. }
  { apply forward_regular; auto. lra. }
  assert (Eo : @q_options R q = lenient) by (rewrite Eq; reflexivity).
  assert (Hp : passes Qs 100 100 (hx q) (hy q) (hz q) (hs q)).
  { assert (Hh : hx q 0 = hx q0 0 /\ hs q 0 = hs q0 0 /\ hz q 0 = hz q0 0) by (rewrite Eq; repeat split; reflexivity).
    destruct Hh as [Y0 [Y1 Y2]]. rewrite X0 in Y0. rewrite X1 in Y1. rewrite X2 in Y2.
    assert (Ht : (10 < 100 / sqrt 3)%R).
    { assert (sqrt 3 < 10)%R. { rewrite <- (sqrt_Rsqr 10) by lra. apply sqrt_lt_1; unfold Rsqr; lra. }
      assert (0 < sqrt 3)%R by (apply sqrt_lt_R0; lra). apply Rmult_lt_reg_r with (sqrt 3); auto.
      unfold Rdiv. rewrite Rmult_assoc, Rinv_l by lra. lra. }
    split; [|split; [|split]].
    - change (dn Qs) with 1. rewrite Euclid1. unfold res_dual. change (dn Qs) with 1. change (dm Qs) with 1. change (dp Qs) with 0.
      rewrite Sum0, !Sum1, Qs_P, Qs_G, Qs_c, Y0, Y2. unfold Rabs. match goal with |- context[Rcase_abs ?a] => destruct (Rcase_abs a) end; lra.
    - change (dm Qs) with 1. rewrite Euclid1. unfold res_in. change (dn Qs) with 1.
      rewrite Sum1, Qs_G, Qs_h, Y0, Y1. unfold Rabs. match goal with |- context[Rcase_abs ?a] => destruct (Rcase_abs a) end; lra.
    - intros C. exfalso. apply C. reflexivity.
    - unfold gap. change (dm Qs) with 1. rewrite Sum1, Y1, Y2. lra. }
  assert (Hk : k = O).
  { destruct k as [|k]; auto. exfalso. destruct (sm_run _ _ _ _ _ _ _ _ _ M O ltac:(lia)) as [Hno _]. apply Hno. rewrite Eo.
    unfold passes_at. destruct (sm_from _ _ _ _ _ _ _ _ _ M) as [Z1 Z2 Z3 Z4].
    apply (passes_ext Qs (vx (V0 O)) (hx q) (vy (V0 O)) (hy q) (vz (V0 O)) (hz q) (vs (V0 O)) (hs q)); auto. }
  subst k. pose proof (sm_code _ _ _ _ _ _ _ _ _ M) as Ec. rewrite Eo in Ec.
  assert (EI : @IterationCount R (@q_stats R q) = 0).
  { rewrite Eq. apply (f_equal IterationCount) in T1. exact T1. }
  rewrite EI in Ec. cbn in Ec. subst c. exists q'. split; auto.
Qed.

(** ** C45: x <= -1 and x >= 1 *)
Definition clash : user R :=
  mkUser 1 2 0 (zs [0; 1]) (zs [0]) (fs RA [1]) None None None (zs [0; 2]) (zs [0; 1]) (fs RA [1; -1])
    (fs RA [0]) (fs RA [-1; -1]) None 0%R (Some (zs [0; 1; 2])).

Lemma clash_valid amd : valid_user amd clash.
Proof.
  constructor; cbn [clash u_n u_m u_p u_Pjc u_Pir u_Ppr u_Gjc u_Gir u_Gpr u_c u_h u_perm].
  - lia.
  - lia.
  - csc_concrete.
  - csc_concrete.
  - intros ajc air apr bb E. discriminate E.
  - intros i Hi. enum i; eexists; reflexivity.
  - intros i Hi. enum i; eexists; reflexivity.
  - exists 0, 0, (fofZ RA 1). split; [lia|]. left. exists 0, 1, 0. cbn. repeat split; auto; lia.
  - change (u_N clash) with 3. perm_concrete.
Qed.

Example C45_case amd q : session RA amd clash [SetOptions RA (default_settings RA); Solve RA] <> Ok ([0], q).
Proof.
  intros E. pose proof (C45_certificates amd clash _ q (clash_valid amd) (quiet_small clash (default_settings RA) eq_refl) E (fun _ => 0%R) (fun _ => 1%R)) as H.
  set (Q := user_qp clash) in *.
  assert (G0 : dG Q 0 0 = 1%R) by (cbv - [Rplus IZR Ropp]; lra). assert (G1 : dG Q 1 0 = (-1)%R) by (cbv - [Rplus IZR Ropp]; lra).
  assert (h0 : dh Q 0 = (-1)%R) by (cbv - [Rplus IZR Ropp]; lra). assert (h1 : dh Q 1 = (-1)%R) by (cbv - [Rplus IZR Ropp]; lra).
  unfold certificate_value in H. change (dm Q) with 2 in H. change (dp Q) with 0 in H. cbn [Z.eqb] in H.
  rewrite Sum0, Sum2, h0, h1 in H. unfold Euclid in H. rewrite Sum2 in H.
  change (reltol (default_settings RA)) with (1 / 1000000)%R in H.
  assert (HI : infeasibility_certificate Q (fun _ => 0%R) (fun _ => 1%R)).
  { split; [intros; lra|]. intros j Hj. change (dn Q) with 1 in Hj. enum j. change (dm Q) with 2. change (dp Q) with 0.
    rewrite Sum0, Sum2, G0, G1. lra. }
  specialize (H HI).
  assert (S3 : (1 < sqrt 3)%R) by (rewrite <- sqrt_1 at 1; apply sqrt_lt_1; lra).
  assert (S2 : (sqrt (1 * 1 + 1 * 1) < 2)%R) by (rewrite <- (sqrt_Rsqr 2) by lra; apply sqrt_lt_1; unfold Rsqr; lra).
  assert (S2' : (0 <= sqrt (1 * 1 + 1 * 1))%R) by apply sqrt_pos.
  assert (T : (1 / 1000000 / sqrt 3 <= 1)%R).
  { apply Rmult_le_reg_r with (sqrt 3); [lra|]. unfold Rdiv. rewrite !Rmult_assoc, Rinv_l by lra. lra. }
  assert ((1 / 1000000 / sqrt 3) * (sqrt (1 * 1 + 1 * 1) + 0) <= 1 * sqrt (1 * 1 + 1 * 1))%R.
  { rewrite Rplus_0_r. apply Rmult_le_compat_r; auto. }
  lra.
Qed.

(** ** C46: minimise -x subject to x >= 1 *)
Definition endless : user R :=
  mkUser 1 1 0 (zs [0; 0]) (zs []) (fs RA []) None None None (zs [0; 1]) (zs [0]) (fs RA [-1])
    (fs RA [-1]) (fs RA [-1]) None 0%R (Some (zs [0; 1])).

Lemma endless_valid amd : valid_user amd endless.
Proof.
  constructor; cbn [endless u_n u_m u_p u_Pjc u_Pir u_Ppr u_Gjc u_Gir u_Gpr u_c u_h u_perm].
  - lia.
  - lia.
  - eexists. constructor; [constructor; [reflexivity| |reflexivity|]|].
    + intros j Hj. enum j. do 2 eexists. split; [reflexivity|split; [reflexivity|lia]].
    + intros k Hk. lia.
    + intros k Hk. lia.
  - csc_concrete.
  - intros ajc air apr bb E. discriminate E.
  - intros i Hi. enum i; eexists; reflexivity.
  - intros i Hi. enum i; eexists; reflexivity.
  - exists 0, 0, (fofZ RA (-1)). split; [lia|]. right. left. exists 0, 1, 0. cbn. repeat split; auto; lia.
  - change (u_N endless) with 2. perm_concrete.
Qed.

Example C46_case amd q : session RA amd endless [SetOptions RA (default_settings RA); Solve RA] <> Ok ([0], q).
Proof.
  intros E. pose proof (C46_unbounded amd endless _ q (endless_valid amd) (quiet_small endless (default_settings RA) eq_refl) E (fun _ => 1%R)) as H.
  set (Q := user_qp endless) in *.
  assert (P0 : dP Q 0 0 = 0%R) by (cbv - [Rplus IZR Ropp]; lra). assert (G0 : dG Q 0 0 = (-1)%R) by (cbv - [Rplus IZR Ropp]; lra).
  assert (c0 : dc Q 0 = (-1)%R) by (cbv - [Rplus IZR Ropp]; lra).
  assert (HS : symmetric Q) by (intros i j Hi Hj; change (dn Q) with 1 in *; enum i; enum j; reflexivity).
  assert (HU : unbounded_direction Q (fun _ => 1%R)).
  { split.
    - intros i Hi. change (dn Q) with 1 in *. enum i. rewrite Sum1, P0. lra.
    - intros i Hi. change (dp Q) with 0 in Hi. lia.
    - intros i Hi. change (dm Q) with 1 in *. change (dn Q) with 1. enum i. rewrite Sum1, G0. lra. }
  specialize (H HS HU). change (dn Q) with 1 in H. rewrite Sum1, Euclid1, c0 in H. rewrite Rabs_pos_eq in H by lra.
  change (reltol (default_settings RA)) with (1 / 1000000)%R in H.
  assert (S3 : (1 < sqrt 3)%R) by (rewrite <- sqrt_1 at 1; apply sqrt_lt_1; lra).
  assert (T : (1 / 1000000 / sqrt 3 <= 1 / 1000000)%R).
  { apply Rmult_le_reg_r with (sqrt 3); [lra|]. unfold Rdiv. rewrite !Rmult_assoc, Rinv_l by lra. lra. }
  lra.
Qed.

(** C29, C47, C48: their hypotheses hold of [natural]. *)
Example C47_case amd : valid_user amd natural /\ covered natural /\ symmetric (user_qp natural) /\ psd_on (user_qp natural).
Proof.
  split; [apply natural_valid|]. split; [exact (small_covered RA)|]. split; [apply Qs_sym|].
  intros x. change (dn Qs) with 1. rewrite !Sum1, Qs_P. nra.
Qed.

(** ** C22: the dual residual can grow *)
Lemma step_len_down v d : (0 < v 0%Z)%R -> (d 0%Z < 0)%R -> (v 0%Z / - d 0%Z < 10000000000)%R -> step_length v d 1 (v 0%Z / - d 0%Z).
Proof.
  intros Hv Hd Hl. left. split; auto. assert (E : (v 0%Z / - d 0%Z * d 0%Z = - v 0%Z)%R) by (field; lra). split.
  - intros i Hi. enum i. lra.
  - intros b Hb. exists 0. split; [lia|]. assert (b * d 0%Z < v 0%Z / - d 0%Z * d 0%Z)%R by nra. lra.
Qed.
Lemma step_len_up v d : (0 <= v 0%Z)%R -> (0 <= d 0%Z)%R -> step_length v d 1 1.
Proof. intros Hv Hd. right. split; auto. intros i Hi. enum i. nra. Qed.

Lemma dir_solve e v rc d : (forall a, 0 <= a < 2 -> e a = 0%R) -> vx v 0 = (1 / 2)%R -> vs v 0 = 1%R -> vz v 0 = (1 / 2)%R ->
  direction Qs e v rc d -> vx d 0 = (2 / 3 * (rc 0%Z + 3 / 4))%R /\ vz d 0 = vx d 0 /\ vs d 0 = (vx d 0%Z - 3 / 2)%R.
Proof.
  intros He X S Zv [H1 _ H3 H4]. specialize (H1 0 ltac:(cbn; lia)). specialize (H3 0 ltac:(cbn; lia)). specialize (H4 0 ltac:(cbn; lia)).
  unfold res_dual, res_in in *. change (dn Qs) with 1 in *. change (dm Qs) with 1 in *. change (dp Qs) with 0 in *.
  change (1 + 0 + 0) with 1 in H3. rewrite !He in * by lia. rewrite ?Sum0, ?Sum1, ?Qs_P, ?Qs_G, ?Qs_c, ?Qs_h, ?X, ?S, ?Zv in *. lra.
Qed.

Lemma first_step e v v' ap ad sg' : (forall a, 0 <= a < 2 -> e a = 0%R) -> vx v 0 = (1 / 2)%R -> vs v 0 = 1%R -> vz v 0 = (1 / 2)%R ->
  method_step Qs e 0 100 v v' ap ad sg' ->
  ap = (99 / 100 * (27 / 32))%R /\ ad = (99 / 100)%R /\ vx v' 0 = (1 / 2 + ap * (17 / 54))%R /\ vz v' 0 = (1 / 2 + ad * (17 / 54))%R.
Proof.
  intros He X S Zv [d [HD [HA [HB HM]]]]. destruct HD as [dp a b Hlt Dp Sa Sb Es Dd|Hle]; [|lra].
  destruct (dir_solve e v _ dp He X S Zv Dp) as [P1 [P2 P3]]. cbv beta in P1. rewrite S, Zv in P1.
  assert (P1' : vx dp 0 = (1 / 6)%R) by lra. rewrite P1' in P2, P3. change (dm Qs) with 1 in *.
  assert (Ea : a = (3 / 4)%R).
  { assert (E0 : (vs v 0%Z / - vs dp 0%Z)%R = (3 / 4)%R) by (rewrite S, P3; field). rewrite <- E0.
    eapply step_length_unique; [exact Sa|]. apply step_len_down; rewrite ?E0; lra. }
  assert (Es' : sg' = 0%R).
  { rewrite Es. unfold reduction. change (dm Qs) with 1. rewrite !Sum1. rewrite S, Zv, P2, P3, Ea.
    replace ((1 + 3 / 4 * (1 / 6 - 3 / 2)) * (1 / 2 + b * (1 / 6)) / (1 * (1 / 2)))%R with 0%R by field.
    rewrite (Rmin_right 1 0) by lra. rewrite Rmax_left; [reflexivity|]. simpl. lra. }
  destruct (dir_solve e v _ d He X S Zv Dd) as [D1 [D2 D3]]. cbv beta in D1. rewrite S, Zv, P2, P3, Es' in D1.
  assert (D1' : vx d 0 = (17 / 54)%R) by lra. rewrite D1' in D2, D3.
  assert (Ap : ap = (99 / 100 * (27 / 32))%R).
  { destruct HA as [t [Ht ->]]. change (dm Qs) with 1 in Ht.
    assert (E0 : (vs v 0%Z / - vs d 0%Z)%R = (27 / 32)%R) by (rewrite S, D3; field).
    assert (Et : t = (27 / 32)%R).
    { rewrite <- E0. eapply step_length_unique; [exact Ht|]. apply step_len_down; rewrite ?E0; lra. }
    rewrite Et. apply Rmin_left. lra. }
  assert (Ad : ad = (99 / 100)%R).
  { destruct HB as [t [Ht ->]]. change (dm Qs) with 1 in Ht.
    assert (Et : t = 1%R). { eapply step_length_unique; [exact Ht|]. apply step_len_up; lra. }
    rewrite Et. rewrite Rmin_left; lra. }
  split; auto. split; auto. destruct HM as [M1 _ M3 _].
  rewrite (M1 0), (M3 0) by (cbn; lia). rewrite X, Zv, D2, D1'. auto.
Qed.

(** One iteration on [natural] starts with dual residual 0 and ends with a positive one. *)
Theorem C22_growth amd : exists q c q' V sg ap ad,
  solved amd natural [SetOptions RA one_iteration] q c q' 1 V sg ap ad /\ regular_at (user_qp natural) (order_in q) (V O) /\
  Euclid (res_dual (user_qp natural) (hx q) (hy q) (hz q)) (dn (user_qp natural)) = 0%R /\
  (0 < Euclid (res_dual (user_qp natural) (hx q') (hy q') (hz q')) (dn (user_qp natural)))%R.
Proof.
  destruct (steps_case amd) as [q [c [q' [V [sg [ap [ad [HV [HC [HS [HT HR]]]]]]]]]]].
  exists q, c, q', V, sg, ap, ad. split; [exact HT|]. split; [exact HR|]. destruct HT as [cs [F1 [F2 M]]].
  destruct (session_set RA amd natural [] one_iteration cs q F1) as [q0 [E0 Eq]].
  destruct (C47_start_point amd natural HV HC HS) as [q1 [E1 _]]. rewrite E0 in E1. injection E1 as -> <-.
  destruct (start_values amd natural (zs [0; 1]) (fun i => i) q0 HV HC eq_refl eq_refl eq_refl) as [_ [X0 [X1 X2]]]; auto.
  { intros i Hi. enum i; reflexivity. }
  { apply forward_regular; auto. lra. }
  assert (Hh : hx q 0 = hx q0 0 /\ hs q 0 = hs q0 0 /\ hz q 0 = hz q0 0) by (rewrite Eq; repeat split; reflexivity).
  destruct Hh as [Y0 [Y1 Y2]]. rewrite X0 in Y0. rewrite X1 in Y1. rewrite X2 in Y2.
  destruct (sm_from _ _ _ _ _ _ _ _ _ M) as [Z1 _ Z3 Z4]. destruct (sm_to _ _ _ _ _ _ _ _ _ M) as [W1 _ W3 W4].
  specialize (Z1 0 ltac:(cbn; lia)). specialize (Z3 0 ltac:(cbn; lia)). specialize (Z4 0 ltac:(cbn; lia)).
  specialize (W1 0 ltac:(cbn; lia)). specialize (W3 0 ltac:(cbn; lia)). cbn [vars_of vx vz vs] in *.
  assert (Esg : sg O = 100%R).
  { rewrite (sm_sg _ _ _ _ _ _ _ _ _ M). assert (Eo : @q_options R q = one_iteration) by (rewrite Eq; reflexivity). rewrite Eo. reflexivity. }
  destruct (sm_run _ _ _ _ _ _ _ _ _ M O ltac:(lia)) as [_ [e [[_ He] HMS]]]. specialize (He HR). rewrite Esg in HMS.
  destruct (first_step e (V O) (V 1%nat) (ap O) (ad O) (sg 1%nat) He) as [A1 [A2 [A3 A4]]]; try congruence.
  { exact HMS. }
  change (dn Qs) with 1. rewrite !Euclid1. unfold res_dual. change (dn Qs) with 1. change (dm Qs) with 1. change (dp Qs) with 0.
  rewrite ?Sum0, ?Sum1, ?Qs_P, ?Qs_G, ?Qs_c, Y0, Y2, <- W1, <- W3, A3, A4, A1, A2. split.
  - match goal with |- Rabs ?a = _ => replace a with 0%R by lra end. apply Rabs_R0.
  - apply Rabs_pos_lt. lra.
Qed.
Print Assumptions C22_growth.
