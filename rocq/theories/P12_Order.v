(** The elimination order chosen by the library itself (C35): the ordering hypothesis of the other theorems holds for the
    model of AMD_order, so a setup without a user permutation always ends up with a permutation. *)
From Coq Require Import ZArith Reals List Lia Lra Bool.
From RecordUpdate Require Import RecordUpdate.
From Verif Require Import Res Partial Arith Lists MSparse Csc SemVec Flat DenseProofs TransposeProofs MSolver LdlNum VecOps Iter SafeInst Setup Session Spec SpecLink QpSpec
  Api Demo P1_Sparse P2_Kkt P4_Always P5_Session P6_Codes P9_Entry MAmd AmdPre AmdOrder.
Import ListNotations.
Open Scope Z_scope.
Open Scope res_scope.

(** amd_l_order with the options of amd_l_defaults as QP_SETUP calls it (src/qpSWIFT.c:203-206).  [mem k] tells whether
    the k-th allocation inside it succeeds; [alpha n] is the integer part of the dense-row threshold (src/amd_2.c:588-603),
    a floating-point computation: the theorems hold for every value. *)
Definition amd_lib (mem : nat -> bool) (alpha : Z -> Z) (aggressive : bool) : amd_t :=
  fun n Ap Ai P => AMD_order mem (alpha n) aggressive n Ap Ai P.

Lemma fits_memory_le n nz nz' : nz' <= nz -> fits_memory n nz -> fits_memory n nz'.
Proof. unfold fits_memory. intros H F. assert (2 * nz' / 5 <= 2 * nz / 5) by (apply Z.div_le_mono; lia). lia. Qed.

(** Enough memory: every allocation succeeds and the workspace size stays below the package's limit. *)
Definition enough (mem : nat -> bool) (n nz : Z) : Prop := (forall k, mem k = true) /\ fits_memory n nz.

(** The hypothesis about the ordering package made elsewhere holds. *)
Theorem C35_ordering_ok mem alpha aggressive N cap (fits : Prop) : fits \/ enough mem N cap ->
  ordering_ok (amd_lib mem alpha aggressive) N cap fits.
Proof.
  intros H Jc Ir nz P HC Hz HL.
  destruct (AMD_order_ok mem (alpha N) aggressive N nz Jc Ir P HC HL) as [st [P' [E [L [S1 [S2 S3]]]]]].
  exists st, P'. split; [exact E|]. split; auto. split.
  - intros Hs. apply S2. intros ->. unfold AMD_OUT_OF_MEMORY in Hs. lia.
  - intros Hs. destruct H as [H|[H1 H2]]; auto. exfalso. apply (S3 H1); [apply (fits_memory_le _ _ _ Hz H2)|].
    destruct S1 as [-> |[-> | ->]]; auto; unfold AMD_OK, AMD_OK_BUT_JUMBLED in Hs; lia.
Qed.
Print Assumptions C35_ordering_ok.

(** The arguments other than the permutation are valid. *)
Definition valid_data {F} (u : user F) : Prop := exists P, valid_user noamd (u <| u_perm := Some P |>).

(** The fallback loop stays inside its array, or it does not run (see C36). *)
Definition order_defined {F} (mem : nat -> bool) (u : user F) : Prop := u_p u = u_pe u \/ enough mem (u_N u) (u_cap u).

Lemma valid_without {F} mem alpha aggressive (u : user F) : valid_data u -> u_perm u = None -> order_defined mem u ->
  valid_user (amd_lib mem alpha aggressive) u.
Proof.
  intros [P [V1 V2 V3 V4 V5 V6 V7 V8 _]] HP HO. split; auto. rewrite HP. apply C35_ordering_ok. exact HO.
Qed.

Ltac pok := apply pw_ok.
Ltac pstep :=
  match goal with
  | |- pw (bind _ _) _ => apply pw_skip; let x := fresh "x" in let E := fresh "E" in intros x E; cbv zeta beta
  | |- pw (let '(_, _) := ?x in _) _ => destruct x
  | |- pw (if ?b then _ else _) _ => destruct b
  end.

Lemma kkt_initialize_stats (A : Arith) q : pw (kkt_initialize A q) (fun r => fst r = true /\ frame A q (snd r) /\ q_stats (snd r) = q_stats q).
Proof.
  unfold kkt_initialize. cbv zeta. pstep. pstep. pstep. apply pw_bind. eapply pw_mono; [apply ldlinitialsolve_always|].
  intros [[ok k] delta] [H1 H2]. cbn [fst snd] in *. subst ok. pstep. pstep. pstep. pstep. pstep. destruct x6 as [mn mx].
  pstep. pstep. pok. cbn [fst snd]. split; auto. split; [|reflexivity]. split; try reflexivity. exact H2.
Qed.

(** What the choice of the ordering records. *)
Lemma setup_core_order (A : Arith) amd n m p_arg P G AM c h b sd : 0 <= n + m + p_arg ->
  pw (setup_core A amd n m p_arg P G AM c h b sd None) (fun q => exists N Jc Ir P0 st P1, amd N Jc Ir P0 = Ok (st, P1) /\ AMD_RESULT (q_stats q) = st /\
    (0 <= st -> k_P (q_kkt q) = P1) /\ (st < 0 -> forall i, 0 <= i < n + m + p_arg -> rd (k_P (q_kkt q)) i = Ok i)).
Proof.
  intros H0. unfold setup_core. cbv zeta. pskip. pskip.
  assert (HP : forall (K : smat (car A)) np, pw (setup_perm A amd K np (n + m + p_arg) None) (fun r => exists N Jc Ir P0 st P1, amd N Jc Ir P0 = Ok (st, P1) /\ snd r = st /\
     (0 <= st -> fst r = P1) /\ (st < 0 -> forall i, 0 <= i < n + m + p_arg -> rd (fst r) i = Ok i))).
  { intros K np. unfold setup_perm. destruct (amd (sn K) (jc K) (ir K) (malloc Z np)) as [[st P1]| |] eqn:E; [|intros ? X; discriminate X|intros ? X; discriminate X]. cbn [bind].
    destruct (Z.ltb_spec st 0) as [Hs|Hs].
    - apply pw_bind. eapply pw_mono; [apply identity_loop; auto|]. intros P2 H2. apply pw_ok. do 6 eexists. split; [exact E|]. split; [reflexivity|]. split; [lia|]. auto.
    - apply pw_ok. do 6 eexists. split; [exact E|]. split; [reflexivity|]. split; auto. lia. }
  destruct AM as [M|].
  - pskip. apply pw_bind. eapply pw_mono; [apply HP|]. intros [Pm r] HPm. apply pw_bind. eapply pw_mono; [apply kkt_initialize_stats|].
    intros [ok q] [Hok [HF HFl]]. cbn [fst snd] in *. subst ok. apply pw_ok. rewrite (fr_kP _ _ _ HF), HFl. exact HPm.
  - pskip. apply pw_bind. eapply pw_mono; [apply HP|]. intros [Pm r] HPm. apply pw_bind. eapply pw_mono; [apply kkt_initialize_stats|].
    intros [ok q] [Hok [HF HFl]]. cbn [fst snd] in *. subst ok. apply pw_ok. rewrite (fr_kP _ _ _ HF), HFl. exact HPm.
Qed.

Lemma setup_order (A : Arith) amd (u : user (car A)) q : 0 <= u_n u + u_m u + u_p u -> u_perm u = None -> setup A amd u = Ok q ->
  exists N Jc Ir P0 st P1, amd N Jc Ir P0 = Ok (st, P1) /\ AMD_RESULT (q_stats q) = st /\
    (0 <= st -> k_P (q_kkt q) = P1) /\ (st < 0 -> forall i, 0 <= i < u_n u + u_m u + u_p u -> rd (k_P (q_kkt q)) i = Ok i).
Proof.
  intros H0 HP E. unfold setup, QP_SETUP in E. rewrite HP in E. revert q E.
  match goal with |- forall q, ?X = Ok q -> @?Y q => change (pw X Y) end.
  pskip. pskip. pskip. apply setup_core_order. auto.
Qed.

(** Setup only depends on the answers the ordering package gives. *)
Lemma setup_refine (A : Arith) amd amd' (u : user (car A)) q : (forall n Jc Ir P r, amd' n Jc Ir P = Ok r -> amd n Jc Ir P = Ok r) ->
  setup A amd' u = Ok q -> setup A amd u = Ok q.
Proof.
  intros H. unfold setup, QP_SETUP, setup_core.
  repeat match goal with |- bind ?m _ = Ok _ -> _ => destruct m as [?| |]; cbn [bind]; [|intros X; exact X|intros X; exact X] end.
  match goal with |- (let '(_, _) := ?e in _) = _ -> _ => destruct e as [kn km] end.
  match goal with |- bind ?m _ = Ok _ -> _ => destruct m as [K| |]; cbn [bind]; [|intros X; exact X|intros X; exact X] end.
  unfold setup_perm. destruct (u_perm u) as [P|]; [intros X; exact X|].
  match goal with |- context [amd' ?n ?a ?b ?c] => destruct (amd' n a b c) as [r| |] eqn:E; [|discriminate|discriminate] end.
  rewrite (H _ _ _ _ _ E). intros X. exact X.
Qed.

(** The status a setup reports satisfies every test the package's status satisfies on valid patterns. *)
Lemma setup_status (A : Arith) amd (u : user (car A)) (good : Z -> bool) : div_ok A -> valid_user amd u -> u_perm u = None ->
  (forall Jc Ir nz P st P', csc_pattern (u_N u) (u_N u) Jc Ir nz -> nz <= u_cap u -> zlen P = u_N u -> amd (u_N u) Jc Ir P = Ok (st, P') -> good st = true) ->
  forall q, setup A amd u = Ok q -> good (AMD_RESULT (q_stats q)) = true.
Proof.
  intros Hdiv V HP HG q Eq.
  set (amd' := fun n Jc Ir P => '(st, P') <- amd n Jc Ir P ;; if good st then Ok (st, P') else Ub Undef).
  assert (V' : valid_user amd' u).
  { destruct V as [V1 V2 V3 V4 V5 V6 V7 V8 V9]. split; auto. rewrite HP in *. intros Jc Ir nz P HC Hz HL.
    destruct (V9 Jc Ir nz P HC Hz HL) as [st [P' [E [L [S1 S2]]]]]. exists st, P'. split; auto. unfold amd'. rewrite E. cbn [bind].
    rewrite (HG Jc Ir nz P st P' HC Hz HL E). reflexivity. }
  assert (R : forall n Jc Ir P r, amd' n Jc Ir P = Ok r -> amd n Jc Ir P = Ok r).
  { intros n Jc Ir P [st P']. unfold amd'. destruct (amd n Jc Ir P) as [[st1 P1]| |]; cbn [bind]; try discriminate. destruct (good st1); [auto|discriminate]. }
  destruct (proj1 (wp_exists _ _) (setup_ok A amd' u Hdiv V')) as [q' [E' _]].
  pose proof (setup_refine A amd amd' u q' R E') as E2. rewrite Eq in E2. injection E2 as <-.
  assert (H0 : 0 <= u_n u + u_m u + u_p u \/ u_n u + u_m u + u_p u < 0) by lia.
  unfold setup, QP_SETUP in E'. rewrite HP in E'. 
  assert (W : forall n m p P G AM c h b sd, pw (setup_core A amd' n m p P G AM c h b sd None) (fun q => good (AMD_RESULT (q_stats q)) = true)).
  { intros. unfold setup_core. cbv zeta. pskip. pskip.
    assert (HSP : forall (K : smat (car A)) np nf, pw (setup_perm A amd' K np nf None) (fun r => good (snd r) = true)).
    { intros K np nf. unfold setup_perm. destruct (amd' (sn K) (jc K) (ir K) (malloc Z np)) as [[st P1]| |] eqn:E; [|intros ? X; discriminate X|intros ? X; discriminate X]. cbn [bind].
      assert (G1 : good st = true). { unfold amd' in E. destruct (amd _ _ _ _) as [[st1 P2]| |]; cbn [bind] in E; try discriminate E. destruct (good st1) eqn:Eg; [|discriminate E]. injection E as <- <-. exact Eg. }
      destruct (st <? 0); [apply pw_skip; intros ? _|]; apply pw_ok; exact G1. }
    destruct AM as [M|]; pskip; (apply pw_bind; eapply pw_mono; [apply HSP|]; intros [Pm r] HPm; apply pw_bind; eapply pw_mono; [apply kkt_initialize_stats|];
      intros [ok q1] [Hok [HF HFl]]; cbn [fst snd] in *; subst ok; apply pw_ok; rewrite HFl; exact HPm). }
  clear H0 Eq. revert q E'.
  match goal with |- forall q, ?X = Ok q -> @?Y q => change (pw X Y) end.
  pskip. pskip. pskip. apply W.
Qed.

(** C35: without a user permutation setup succeeds with an elimination order that is a permutation of the KKT indices,
    whether the package succeeds or not.  It fails for lack of memory only, and then the natural order is used. *)
Theorem C35_elimination_order (A : Arith) mem alpha aggressive (u : user (car A)) : div_ok A -> valid_data u -> u_perm u = None -> order_defined mem u ->
  exists q, setup A (amd_lib mem alpha aggressive) u = Ok q /\ permutation_array (k_P (q_kkt q)) (u_N u) /\
    (AMD_RESULT (q_stats q) = 0 \/ AMD_RESULT (q_stats q) = 1 \/ AMD_RESULT (q_stats q) = -1) /\
    (AMD_RESULT (q_stats q) = -1 -> ~ enough mem (u_N u) (u_cap u)) /\
    (AMD_RESULT (q_stats q) = -1 -> forall i, 0 <= i < u_N u -> rd (k_P (q_kkt q)) i = Ok i).
Proof.
  intros Hdiv HV HP HO. pose proof (valid_without mem alpha aggressive u HV HP HO) as V.
  destruct (proj1 (wp_exists _ _) (setup_ok A _ u Hdiv V)) as [q [E [B [r HS]]]]. exists q. split; auto.
  pose proof (valid_pe A _ u V) as Hpe. pose proof V as [Vn Vm _ _ _ _ _ _ _].
  assert (EN : pN B = u_N u). { destruct (sd_n _ _ _ _ _ HS) as [E1 [E2 [E3 _]]]. unfold pN, u_N. lia. }
  split. { rewrite <- EN. eapply perm_unlink; [apply HS|apply HS]. }
  assert (R1 : AMD_RESULT (q_stats q) = 0 \/ AMD_RESULT (q_stats q) = 1 \/ AMD_RESULT (q_stats q) = -1).
  { enough (((AMD_RESULT (q_stats q) =? 0) || (AMD_RESULT (q_stats q) =? 1) || (AMD_RESULT (q_stats q) =? -1)) = true) by (rewrite !orb_true_iff, !Z.eqb_eq in H; tauto).
    apply (setup_status A (amd_lib mem alpha aggressive) u (fun r => (r =? 0) || (r =? 1) || (r =? -1))); auto.
    intros Jc Ir nz P st P' HC Hz HL Es. destruct (AMD_order_ok mem (alpha (u_N u)) aggressive (u_N u) nz Jc Ir P HC HL) as [st1 [P1 [E1 [_ [S1 _]]]]].
    unfold amd_lib in Es. rewrite Es in E1. injection E1 as <- <-. unfold AMD_OK, AMD_OK_BUT_JUMBLED, AMD_OUT_OF_MEMORY in S1.
    rewrite !orb_true_iff, !Z.eqb_eq. tauto. }
  assert (R2 : AMD_RESULT (q_stats q) = -1 -> ~ enough mem (u_N u) (u_cap u)).
  { intros Er [M1 M2]. enough (negb (AMD_RESULT (q_stats q) =? -1) = true) by (rewrite Er in H; discriminate H).
    apply (setup_status A (amd_lib mem alpha aggressive) u (fun r => negb (r =? -1))); auto.
    intros Jc Ir nz P st P' HC Hz HL Es. destruct (AMD_order_ok mem (alpha (u_N u)) aggressive (u_N u) nz Jc Ir P HC HL) as [st1 [P1 [E1 [_ [_ [_ S3]]]]]].
    unfold amd_lib in Es. rewrite Es in E1. injection E1 as <- <-. apply negb_true_iff, Z.eqb_neq. apply S3; auto. eapply fits_memory_le; eauto. }
  split; auto. split; auto. intros Er i Hi. destruct HO as [HO|HO]; [|exfalso; apply (R2 Er); auto].
  destruct (setup_order A _ u q ltac:(lia) HP E) as [N [Jc [Ir [P0 [st [P1 [_ [Es [_ H2]]]]]]]]]. apply H2; [lia|]. unfold u_N in Hi. lia.
Qed.
Print Assumptions C35_elimination_order.

(** So a session without a user permutation never touches memory outside its arrays, whatever the allocator does inside
    the ordering package. *)
Theorem C26_C35_own_order (A : Arith) mem alpha aggressive (u : user (car A)) l : total_arith A -> valid_data u -> u_perm u = None -> order_defined mem u ->
  quiet_calls A u l -> exists codes q, session A (amd_lib mem alpha aggressive) u l = Ok (codes, q).
Proof. intros HT HV HP HO Hq. apply C26_memory_safe_total; auto. apply valid_without; auto. Qed.
Print Assumptions C26_C35_own_order.

Theorem C26_C35_own_order_exact mem alpha aggressive (u : user (car RA)) l : valid_data u -> u_perm u = None -> order_defined mem u ->
  quiet_calls RA u l -> exists codes q, session RA (amd_lib mem alpha aggressive) u l = Ok (codes, q).
Proof. intros HV HP HO Hq. apply C26_memory_safe_exact; auto. apply valid_without; auto. Qed.
Print Assumptions C26_C35_own_order_exact.

(** The same for the dense entry point. *)
Theorem C35_dense (A : Arith) mem alpha aggressive (w : dense_user (car A)) P dP dA dG : div_ok A ->
  valid_dense A noamd (mkDense (d_n w) (d_m w) (d_p w) (d_P w) (d_A w) (d_G w) (d_c w) (d_h w) (d_b w) (Some P) (d_ordering w)) dP dA dG ->
  d_perm w = None ->
  let p := match d_eqs w with Some _ => d_p w | None => 0 end in
  d_p w = p \/ enough mem (d_n w + p + d_m w) (d_n w * d_n w + 2 * (d_m w * d_n w) + d_m w + 2 * (p * d_n w)) ->
  valid_dense A (amd_lib mem alpha aggressive) w dP dA dG /\
  exists q, dense_setup A (amd_lib mem alpha aggressive) w = Ok q /\ permutation_array (k_P (q_kkt q)) (d_n w + p + d_m w).
Proof.
  intros Hdiv V HP p HO.
  assert (VD : valid_dense A (amd_lib mem alpha aggressive) w dP dA dG).
  { destruct V as [V1 V2 V3 V4 V5 V6 V7 V8 _]. split; auto. cbv zeta. rewrite HP. apply C35_ordering_ok. exact HO. }
  split; auto. destruct (C34_dense_is_sparse A _ w dP dA dG VD) as [u [SF [VU _]]].
  pose proof VD as [Vn Vm _ _ _ _ _ _ _].
  destruct (C34_same_handle A (amd_lib mem alpha aggressive) w u dP dA dG Vn ltac:(lia) SF) as [E _]. rewrite E.
  destruct (proj1 (wp_exists _ _) (setup_ok A _ u Hdiv VU)) as [q [E1 [B [r HS]]]]. exists q. split; auto.
  assert (EN : pN B = d_n w + p + d_m w).
  { destruct (sd_n _ _ _ _ _ HS) as [E2 [E3 [E4 _]]]. unfold pN. rewrite E2, E3, E4. destruct SF as [F1 F2 F3 F4 F5 F6 F7 F8 F9 F10 F11]. 
    rewrite F1, F2. enough (u_pe u = p) by lia. unfold u_pe, p, u_eqs. rewrite F3, F6. unfold d_eqs in *.
    destruct (d_A w) as [a|]; [|rewrite F11; destruct (u_Apr u); reflexivity].
    destruct (d_b w) as [bb|]; [|destruct (u_Apr u), (u_Ajc u), (u_Air u); reflexivity].
    destruct (Z.eqb_spec (d_p w) 0) as [Ep|Ep]; [destruct (u_Apr u), (u_Ajc u), (u_Air u); reflexivity|].
    destruct F11 as [_ [_ [ajc [air [apr [-> [-> [-> _]]]]]]]]. reflexivity. }
  rewrite <- EN. eapply perm_unlink; [apply HS|apply HS].
Qed.
Print Assumptions C35_dense.

(** Cases.  On the library's example the package finds exactly the permutation that the repository's demo programs pass
    in; on an unsorted pattern it reports 1; without memory the natural order is used. *)
Definition demo_own (A : Arith) : user (car A) := (demo A) <| u_perm := None |>.

Example C35_case (A : Arith) : valid_data (demo_own A) /\ u_perm (demo_own A) = None /\ forall mem, order_defined mem (demo_own A).
Proof.
  split; [|split; [reflexivity|intros mem; left; reflexivity]]. exists (zs [5; 2; 3; 1; 4; 0]).
  destruct (demo_valid A noamd) as [H1 H2 H3 H4 H5 H6 H7 H8 H9]. split; auto.
Qed.

Definition order_of (r : res (qp (car FA))) : option (arr Z * Z) :=
  match r with Ok q => Some (k_P (q_kkt q), AMD_RESULT (q_stats q)) | _ => None end.

Example C35_demo_order : order_of (setup FA (amd_lib (fun _ => true) (fun _ => 24) true) (demo_own FA)) = Some (zs [5; 2; 3; 1; 4; 0], 0) /\
  order_of (setup FA (amd_lib (fun k => negb (Nat.eqb k 4)) (fun _ => 24) true) (demo_own FA)) = Some (zs [0; 1; 2; 3; 4; 5], -1).
Proof. split; vm_compute; reflexivity. Qed.

Example C35_enough : enough (fun _ => true) 6 21. Proof. split; [reflexivity|]. unfold fits_memory. rewrite SMAX_val. reflexivity. Qed.

Example C35_unsorted : AMD_order (fun _ => true) 16 true 5 (zs [0; 2; 4; 6; 9; 12]) (zs [3; 0; 4; 1; 4; 2; 4; 0; 3; 3; 2; 1]) (malloc Z 5) = Ok (1, zs [2; 1; 4; 0; 3]).
Proof. vm_compute. reflexivity. Qed.
