(** Claim C87: the elimination order is decided by the positions of the entries alone.  Two problems whose matrices have
    the same column pointers and row indices get the same KKT pattern, the same verdict of the ordering package and the
    same elimination order, whatever their values and right-hand sides; also when one of them is solved in doubles and
    the other in real numbers. *)
From Coq Require Import ZArith Reals List Lia Bool.
From RecordUpdate Require Import RecordUpdate.
From Verif Require Import Res Partial Arith Lists MSparse Csc SemVec Flat DenseProofs TransposeProofs KktProofs MLdl MSolver LdlNum VecOps Iter SafeInst Setup Session Spec SpecLink QpSpec
  Api Demo P1_Sparse P2_Kkt P4_Always P5_Session P6_Codes P9_Entry MAmd AmdBase AmdPre AmdOrder P12_Order P46_MinDegree P47_Ordering.
Import ListNotations.
Open Scope Z_scope.
Open Scope res_scope.

(** ** Specification *)

Definition given_ptr {T} (x : option T) : bool := match x with Some _ => true | None => false end.

(** Same sizes, same column pointers, same row indices; equality data and right-hand side present in both or in neither. *)
Record same_pattern {F F'} (u : user F) (u' : user F') : Prop := mkSamePattern {
  sp_n : u_n u = u_n u'; sp_m : u_m u = u_m u'; sp_p : u_p u = u_p u';
  sp_Pjc : u_Pjc u = u_Pjc u'; sp_Pir : u_Pir u = u_Pir u';
  sp_Gjc : u_Gjc u = u_Gjc u'; sp_Gir : u_Gir u = u_Gir u';
  sp_Ajc : u_Ajc u = u_Ajc u'; sp_Air : u_Air u = u_Air u';
  sp_Apr : given_ptr (u_Apr u) = given_ptr (u_Apr u'); sp_b : given_ptr (u_b u) = given_ptr (u_b u')
}.

(** ** Proof *)

(** Columns with the same row indices. *)
Definition same_rows {F F'} (c : cols F) (c' : cols F') : Prop := forall j, map fst (c j) = map fst (c' j).

Lemma same_zlen {F F'} (l : list (Z * F)) (l' : list (Z * F')) : map fst l = map fst l' -> zlen l = zlen l'.
Proof. intros H. rewrite <- (zlen_map fst l), H. apply zlen_map. Qed.

Lemma same_start {F F'} (c : cols F) (c' : cols F') j : same_rows c c' -> start c j = start c' j.
Proof. intros H. apply sumz_ext. intros k _. apply same_zlen, H. Qed.

Lemma same_column {F F'} (d : F) (d' : F') Jc Ir Pr Pr' : same_rows (column d Jc Ir Pr) (column d' Jc Ir Pr').
Proof. intros j. unfold column. rewrite !map_map. reflexivity. Qed.

Lemma same_shift {F F'} off (l : list (Z * F)) (l' : list (Z * F')) : map fst l = map fst l' -> map fst (shift off l) = map fst (shift off l').
Proof. intros H. unfold shift. rewrite !map_map. cbn [fst]. rewrite <- (map_map fst (fun r => off + r) l), H, map_map. reflexivity. Qed.

Lemma same_trow {F F'} j k (l : list (Z * F)) (l' : list (Z * F')) : map fst l = map fst l' -> map fst (trow j k l) = map fst (trow j k l').
Proof.
  revert l'. induction l as [|[r v] l IH]; intros [|[r' v'] l'] H; try discriminate H; [reflexivity|]. injection H as -> H. specialize (IH l' H).
  change ((r', v) :: l) with ([(r', v)] ++ l). change ((r', v') :: l') with ([(r', v')] ++ l'). rewrite !trow_app, !trow_one, !map_app, IH.
  destruct (r' =? k); reflexivity.
Qed.

Lemma same_tcol {F F'} (c : cols F) (c' : cols F') n : same_rows c c' -> same_rows (tcol c n) (tcol c' n).
Proof.
  intros H k. unfold tcol. induction (zr 0 n) as [|j l IH]; [reflexivity|]. cbn [flat_map]. rewrite !map_app, IH. f_equal. apply same_trow, H.
Qed.

Lemma same_kkt (A A' : Arith) n p (pc ac gc : cols (car A)) (pc' ac' gc' : cols (car A')) d d' : same_rows pc pc' -> same_rows ac ac' -> same_rows gc gc' ->
  same_rows (kkt_col A n p pc ac gc d) (kkt_col A' n p pc' ac' gc' d').
Proof.
  intros HP HA HG j. unfold kkt_col. destruct (j <? n).
  - rewrite !map_app. f_equal; [apply HP|]. f_equal; apply same_shift; auto.
  - destruct (j <? n + p); [apply same_tcol; auto|]. pose proof (same_tcol gc gc' n HG (j - n - p)) as H.
    destruct (tcol gc n (j - n - p)) as [|e l]; destruct (tcol gc' n (j - n - p)) as [|e' l']; try discriminate H; [reflexivity|].
    rewrite !map_app, H. reflexivity.
Qed.

(** Arrays that hold columns with the same rows, filled to the end, are the same arrays. *)
Lemma same_arrays {F F'} Jc Ir (Pr : arr F) Jc' Ir' (Pr' : arr F') N c c' : 0 <= N -> Csc Jc Ir Pr N c -> Csc Jc' Ir' Pr' N c' -> same_rows c c' ->
  zlen Jc = N + 1 -> zlen Jc' = N + 1 -> zlen Ir = start c N -> zlen Ir' = start c' N -> Jc = Jc' /\ Ir = Ir'.
Proof.
  intros HN C C' H L1 L1' L2 L2'. split.
  - apply (Flat.arr_ext Jc Jc' (N + 1) (start c)).
    + split; auto. intros i Hi. apply (csc_jc _ _ _ _ _ C). lia.
    + split; auto. intros i Hi. rewrite (same_start c c' i H). apply (csc_jc _ _ _ _ _ C'). lia.
  - apply (Flat.arr_ext Ir Ir' (start c N) (fun i => get 0 Ir i)).
    + split; auto. intros i Hi. destruct (mono_find (start c) N i HN Hi) as [j [Hj Hr]]. rewrite start_succ in Hr by lia.
      destruct (nth_error (c j) (Z.to_nat (i - start c j))) as [[r v]|] eqn:E; [|apply nth_error_None in E; unfold zlen in Hr; lia].
      pose proof (csc_ir _ _ _ _ _ C j _ r v Hj E) as R. rewrite Z2Nat.id in R by lia. replace (start c j + (i - start c j)) with i in R by lia.
      rewrite R. f_equal. symmetry. apply get_rd. exact R.
    + split; [rewrite L2'; symmetry; apply same_start; auto|]. intros i Hi. destruct (mono_find (start c) N i HN Hi) as [j [Hj Hr]]. rewrite start_succ in Hr by lia.
      destruct (nth_error (c j) (Z.to_nat (i - start c j))) as [[r v]|] eqn:E; [|apply nth_error_None in E; unfold zlen in Hr; lia].
      pose proof (csc_ir _ _ _ _ _ C j _ r v Hj E) as R. rewrite Z2Nat.id in R by lia. replace (start c j + (i - start c j)) with i in R by lia.
      rewrite (get_rd 0 _ _ _ R). pose proof (map_nth_error fst _ _ E) as E'. rewrite (H j) in E'. cbn [fst] in E'.
      destruct (nth_error (c' j) (Z.to_nat (i - start c j))) as [[r' v']|] eqn:E2.
      * pose proof (map_nth_error fst _ _ E2) as E3. rewrite E' in E3. cbn [fst] in E3. injection E3 as <-.
        pose proof (csc_ir _ _ _ _ _ C' j _ r v' Hj E2) as R'. rewrite Z2Nat.id in R' by lia. rewrite <- (same_start c c' j H) in R'.
        replace (start c j + (i - start c j)) with i in R' by lia. exact R'.
      * apply nth_error_None in E2. assert (X : nth_error (map fst (c' j)) (Z.to_nat (i - start c j)) = None) by (apply nth_error_None; rewrite map_length; auto). congruence.
Qed.

Lemma same_eqs {F F'} (u : user F) (u' : user F') : same_pattern u u' ->
  match u_eqs u, u_eqs u' with
  | Some (ajc, air, _, _), Some (ajc', air', _, _) => ajc = ajc' /\ air = air'
  | None, None => True
  | _, _ => False
  end.
Proof.
  intros [_ _ Hp _ _ _ _ H1 H2 H3 H4]. unfold u_eqs. rewrite <- H1, <- H2, <- Hp.
  destruct (u_Apr u), (u_Apr u'); try discriminate H3; auto; destruct (u_Ajc u); auto; destruct (u_Air u); auto;
    destruct (u_b u), (u_b u'); try discriminate H4; auto; destruct (u_p u =? 0); auto.
Qed.

Lemma same_N {F F'} (u : user F) (u' : user F') : same_pattern u u' -> u_pe u = u_pe u' /\ u_N u = u_N u'.
Proof.
  intros H. pose proof (same_eqs u u' H) as E. assert (X : u_pe u = u_pe u').
  { unfold u_pe. destruct (u_eqs u) as [[[[? ?] ?] ?]|], (u_eqs u') as [[[[? ?] ?] ?]|]; try destruct E; auto. apply H. }
  split; auto. unfold u_N. rewrite X, (sp_n _ _ H), (sp_m _ _ H). reflexivity.
Qed.

Lemma same_acol (A A' : Arith) (u : user (car A)) (u' : user (car A')) : same_pattern u u' -> same_rows (u_acol A u) (u_acol A' u').
Proof.
  intros H. pose proof (same_eqs u u' H) as E. unfold u_acol.
  destruct (u_eqs u) as [[[[? ?] ?] ?]|], (u_eqs u') as [[[[? ?] ?] ?]|]; try destruct E; [|intros j; reflexivity]. subst. apply same_column.
Qed.

Lemma same_covered (A A' : Arith) amd amd' (u : user (car A)) (u' : user (car A')) : same_pattern u u' -> valid_user amd u -> valid_user amd' u' -> covered u -> covered u'.
Proof.
  intros SP V V' C i Hi. rewrite <- (sp_m _ _ SP) in Hi. destruct (C i Hi) as [j [v [Hj Hs]]]. exists j.
  assert (I : In i (map fst (column (f0 A) (u_Gjc u) (u_Gir u) (u_Gpr u) j))) by (apply in_map_iff; exists (i, v); split; [reflexivity|apply (gcol_in A amd u V); auto]).
  rewrite (sp_Gjc _ _ SP), (sp_Gir _ _ SP), (same_column (f0 A) (f0 A') _ _ (u_Gpr u) (u_Gpr u') j) in I. apply in_map_iff in I. destruct I as [[i' v'] [E I]]. cbn [fst] in E. subst i'.
  rewrite (sp_n _ _ SP) in Hj. exists v'. split; auto. apply (gcol_in A' amd' u' V'); auto.
Qed.

(** The matrix handed to the ordering package and to the factorisation has the same column pointers and row indices. *)
Theorem C87_pattern (A A' : Arith) amd amd' (u : user (car A)) (u' : user (car A')) q q' : div_ok A -> div_ok A' -> same_pattern u u' ->
  valid_user amd u -> valid_user amd' u' -> covered u -> setup A amd u = Ok q -> setup A' amd' u' = Ok q' ->
  let K := k_mat (q_kkt q) in let K' := k_mat (q_kkt q') in
  sn K = sn K' /\ jc K = jc K' /\ ir K = ir K'.
Proof.
  intros D D' SP V V' Cv S S' K K'. pose proof (same_covered A A' amd amd' u u' SP V V' Cv) as Cv'.
  destruct (K_rep A amd u q D V S) as [cap [R Ec]]. destruct (K_rep A' amd' u' q' D' V' S') as [cap' [R' Ec']]. specialize (Ec Cv). specialize (Ec' Cv').
  destruct (same_N u u' SP) as [Ep EN]. fold K in R. fold K' in R'. rewrite <- EN in R', Ec'.
  split; [rewrite (kr_sn _ _ _ _ R), (kr_sn _ _ _ _ R'); reflexivity|].
  eapply same_arrays; [apply (kr_N _ _ _ _ R)|apply (kr_csc _ _ _ _ R)|apply (kr_csc _ _ _ _ R')| |apply R|apply R'| |].
  - rewrite <- Ep, <- (sp_n _ _ SP). apply same_kkt.
    + rewrite (sp_Pjc _ _ SP), (sp_Pir _ _ SP). apply same_column.
    + apply same_acol; auto.
    + rewrite (sp_Gjc _ _ SP), (sp_Gir _ _ SP). apply same_column.
  - rewrite (kr_ir _ _ _ _ R). auto.
  - rewrite (kr_ir _ _ _ _ R'). auto.
Qed.

(** The order in the handle is the one that setup_perm finds for the matrix in the handle. *)
Lemma setup_core_perm (A : Arith) amd n m p_arg P G AM c h b sd perm :
  pw (setup_core A amd n m p_arg P G AM c h b sd perm) (fun q =>
    setup_perm A amd (k_mat (q_kkt q)) (q_m q + q_n q + q_p q) (n + m + p_arg) perm = Ok (k_P (q_kkt q), AMD_RESULT (q_stats q))).
Proof.
  unfold setup_core. cbv zeta. pskip. pskip. destruct AM as [M|].
  - pskip. apply pw_skip. intros [Pm res] E. cbv zeta. apply pw_bind. intros [ok q] Ei. pose proof (kkt_initialize_mat _ _ _ Ei) as H1.
    pose proof (kkt_initialize_stats _ _ _ Ei) as [Hok [HF HS]]. cbn [fst snd] in *. subst ok. apply pw_ok.
    rewrite H1, HS, (fr_kP _ _ _ HF), (fr_n _ _ _ HF), (fr_m _ _ _ HF), (fr_p _ _ _ HF). exact E.
  - pskip. apply pw_skip. intros [Pm res] E. cbv zeta. apply pw_bind. intros [ok q] Ei. pose proof (kkt_initialize_mat _ _ _ Ei) as H1.
    pose proof (kkt_initialize_stats _ _ _ Ei) as [Hok [HF HS]]. cbn [fst snd] in *. subst ok. apply pw_ok.
    rewrite H1, HS, (fr_kP _ _ _ HF), (fr_n _ _ _ HF), (fr_m _ _ _ HF), (fr_p _ _ _ HF). exact E.
Qed.

Lemma setup_perm_of (A : Arith) amd (u : user (car A)) q : setup A amd u = Ok q ->
  setup_perm A amd (k_mat (q_kkt q)) (q_m q + q_n q + q_p q) (u_n u + u_m u + u_p u) (u_perm u) = Ok (k_P (q_kkt q), AMD_RESULT (q_stats q)).
Proof.
  intros E. unfold setup, QP_SETUP in E. revert q E.
  match goal with |- forall q, ?X = Ok q -> @?Y q => change (pw X Y) end.
  pskip. pskip. pskip. apply setup_core_perm.
Qed.

Lemma same_sizes (A A' : Arith) amd amd' (u : user (car A)) (u' : user (car A')) q q' : div_ok A -> div_ok A' -> same_pattern u u' ->
  valid_user amd u -> valid_user amd' u' -> setup A amd u = Ok q -> setup A' amd' u' = Ok q' -> q_m q + q_n q + q_p q = q_m q' + q_n q' + q_p q'.
Proof.
  intros D D' SP V V' S S'.
  destruct (setup_started A amd u q D V S) as [B [r SD]]. destruct (setup_started A' amd' u' q' D' V' S') as [B' [r' SD']].
  pose proof (at_base _ _ _ _ (sd_at _ _ _ _ _ SD)) as BS. pose proof (at_base _ _ _ _ (sd_at _ _ _ _ _ SD')) as BS'.
  pose proof (sd_n _ _ _ _ _ SD) as [X1 [X2 [X3 _]]]. pose proof (sd_n _ _ _ _ _ SD') as [Y1 [Y2 [Y3 _]]].
  destruct (same_N u u' SP) as [Ep _].
  rewrite (b_n _ _ _ BS), (b_m _ _ _ BS), (b_p _ _ _ BS), (b_n _ _ _ BS'), (b_m _ _ _ BS'), (b_p _ _ _ BS').
  rewrite X1, X2, X3, Y1, Y2, Y3, Ep, (sp_n _ _ SP), (sp_m _ _ SP). reflexivity.
Qed.

(** The verdict of the ordering package and the elimination order; also when the package fails and when the caller gives
    the order. *)
Theorem C87_order (A A' : Arith) amd (u : user (car A)) (u' : user (car A')) q q' : div_ok A -> div_ok A' -> same_pattern u u' -> u_perm u = u_perm u' ->
  valid_user amd u -> valid_user amd u' -> covered u -> setup A amd u = Ok q -> setup A' amd u' = Ok q' ->
  AMD_RESULT (q_stats q) = AMD_RESULT (q_stats q') /\ k_P (q_kkt q) = k_P (q_kkt q').
Proof.
  intros D D' SP HP V V' Cv S S'. destruct (C87_pattern A A' amd amd u u' q q' D D' SP V V' Cv S S') as [E1 [E2 E3]].
  pose proof (setup_perm_of A amd u q S) as H. pose proof (setup_perm_of A' amd u' q' S') as H'.
  rewrite (same_sizes A A' amd amd u u' q q' D D' SP V V' S S'), HP, (sp_n _ _ SP), (sp_m _ _ SP), (sp_p _ _ SP) in H.
  unfold setup_perm in H, H'. rewrite E1, E2, E3 in H. rewrite H in H'. injection H' as -> ->. auto.
Qed.

(** ** The symbolic factorisation *)
Section Symbolic.
Variable A : Arith.

(** The arrays in [k] are what LDL_symbolic makes of the pattern of the KKT matrix and the order in [k]. *)
Definition analysed (np : Z) (k : kkt (car A)) : Prop := let M := k_mat k in let n := sn M in exists Lnz Fl,
  LDL_symbolic n (jc M) (ir M) (malloc Z (n + 1)) (malloc Z n) (malloc Z n) (malloc Z n) (Some (k_P k)) (Some (malloc Z np)) =
    Ok (k_Lp k, k_Parent k, Lnz, Fl, Some (k_Pinv k)).

Lemma kkt_numeric_sym k : pw (kkt_numeric A k) (fun r => k_mat (snd r) = k_mat k /\ k_P (snd r) = k_P k /\ k_Lp (snd r) = k_Lp k /\
  k_Parent (snd r) = k_Parent k /\ k_Pinv (snd r) = k_Pinv k).
Proof. unfold kkt_numeric. apply pw_skip. intros [d w] _. apply pw_ok. repeat split. Qed.

Lemma ldlinitialsolve_sym np k delta : k_Pinv k = malloc Z np -> pw (ldlinitialsolve A k delta) (fun r => analysed np (snd (fst r))).
Proof.
  intros HP. unfold ldlinitialsolve. cbv zeta. apply pw_skip. intros [[[[Lp Parent] Lnz] Fl] Pinv] ES. apply pw_skip. intros Pi ED. apply pw_skip. intros lnz _.
  destruct Pinv as [Pv|]; [|discriminate ED]. injection ED as ->. rewrite HP in ES.
  apply pw_bind. eapply pw_mono; [apply kkt_numeric_sym|]. intros [d k1] H. cbn [fst snd] in H. cbn in H. destruct H as [H1 [H2 [H3 [H4 H5]]]].
  apply pw_skip. intros [Lti Ltp] _. cbv zeta. destruct (d =? _).
  - apply pw_skip. intros [dl b] _. apply pw_ok. unfold analysed. cbn. rewrite H1, H2, H3, H4, H5. exists Lnz, Fl. exact ES.
  - apply pw_ok. unfold analysed. cbn. rewrite H1, H2, H3, H4, H5. exists Lnz, Fl. exact ES.
Qed.

Lemma kkt_initialize_sym np q : k_Pinv (q_kkt q) = malloc Z np -> pw (kkt_initialize A q) (fun r => analysed np (q_kkt (snd r))).
Proof.
  intros HP. unfold kkt_initialize. cbv zeta. pstep. pstep. pstep. apply pw_bind. eapply pw_mono; [apply (ldlinitialsolve_sym np); exact HP|].
  intros [[ok k] delta] H. cbn [fst snd] in *. destruct ok.
  - pstep. pstep. pstep. pstep. pstep. destruct x6 as [mn mx]. pstep. pstep. pok. exact H.
  - repeat pstep; pok; exact H.
Qed.

Lemma setup_core_sym amd n m p_arg P G AM c h b sd perm :
  pw (setup_core A amd n m p_arg P G AM c h b sd perm) (fun q => analysed (q_m q + q_n q + q_p q) (q_kkt q)).
Proof.
  unfold setup_core. cbv zeta. pskip. pskip. destruct AM as [M|].
  - pskip. apply pw_skip. intros [Pm res] _. cbv zeta. apply pw_bind. intros [ok q] Ei.
    pose proof (kkt_initialize_stats _ _ _ Ei) as [Hok [HF HS]]. cbn [fst snd] in *. subst ok. apply pw_ok.
    rewrite (fr_n _ _ _ HF), (fr_m _ _ _ HF), (fr_p _ _ _ HF). refine (kkt_initialize_sym _ _ _ _ Ei). reflexivity.
  - pskip. apply pw_skip. intros [Pm res] _. cbv zeta. apply pw_bind. intros [ok q] Ei.
    pose proof (kkt_initialize_stats _ _ _ Ei) as [Hok [HF HS]]. cbn [fst snd] in *. subst ok. apply pw_ok.
    rewrite (fr_n _ _ _ HF), (fr_m _ _ _ HF), (fr_p _ _ _ HF). refine (kkt_initialize_sym _ _ _ _ Ei). reflexivity.
Qed.

Lemma setup_sym amd (u : user (car A)) q : setup A amd u = Ok q -> analysed (q_m q + q_n q + q_p q) (q_kkt q).
Proof.
  intros E. unfold setup, QP_SETUP in E. revert q E.
  match goal with |- forall q, ?X = Ok q -> @?Y q => change (pw X Y) end.
  pskip. pskip. pskip. apply setup_core_sym.
Qed.
End Symbolic.

(** The inverse order, the elimination tree and the column pointers of the factor are the same arrays: memory and fill do
    not depend on values. *)
Theorem C87_symbolic (A A' : Arith) amd (u : user (car A)) (u' : user (car A')) q q' : div_ok A -> div_ok A' -> same_pattern u u' -> u_perm u = u_perm u' ->
  valid_user amd u -> valid_user amd u' -> covered u -> setup A amd u = Ok q -> setup A' amd u' = Ok q' ->
  k_Pinv (q_kkt q) = k_Pinv (q_kkt q') /\ k_Parent (q_kkt q) = k_Parent (q_kkt q') /\ k_Lp (q_kkt q) = k_Lp (q_kkt q').
Proof.
  intros D D' SP HP V V' Cv S S'. destruct (C87_pattern A A' amd amd u u' q q' D D' SP V V' Cv S S') as [E1 [E2 E3]].
  destruct (C87_order A A' amd u u' q q' D D' SP HP V V' Cv S S') as [_ EP]. pose proof (same_sizes A A' amd amd u u' q q' D D' SP V V' S S') as EL.
  destruct (setup_sym A amd u q S) as [z1 [f1 H1]]. destruct (setup_sym A' amd u' q' S') as [z2 [f2 H2]].
  rewrite E1, E2, E3, EL, EP in H1. rewrite H1 in H2. injection H2 as -> -> _ _ ->. auto.
Qed.

(** A case: the library's example in doubles and in real numbers. *)
Lemma C87_case mem : same_pattern (demo_own FA) (demo_own RA) /\
  valid_user (amd_lib mem (fun _ => 24) true) (demo_own FA) /\ valid_user (amd_lib mem (fun _ => 24) true) (demo_own RA) /\
  covered (demo_own FA) /\ u_perm (demo_own FA) = None /\ u_perm (demo_own RA) = None.
Proof.
  destruct (C35_case FA) as [H1 [H2 H3]]. destruct (C35_case RA) as [G1 [G2 G3]]. split; [constructor; reflexivity|].
  split; [apply valid_without; auto|]. split; [apply valid_without; auto|]. split; [exact (demo_covered FA)|]. auto.
Qed.
Print Assumptions C87_pattern. Print Assumptions C87_order. Print Assumptions C87_symbolic.
