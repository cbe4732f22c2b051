(** Claim C85 for a whole setup: without a user permutation, and unless the ordering package runs out of memory, the
    elimination order in the handle is the result of the minimum degree method of [P46_MinDegree.v] on the graph whose
    nodes are the variables, the equalities and the inequalities of the user's problem and whose edges are the
    off-diagonal entries the caller stored in P, A and G. *)
From Coq Require Import ZArith Reals List Lia Bool.
From RecordUpdate Require Import RecordUpdate.
From Verif Require Import Res Partial Arith Lists MSparse Csc SemVec Flat DenseProofs TransposeProofs MSolver LdlNum VecOps Iter SafeInst Setup Session Spec SpecLink QpSpec
  Api Demo P1_Sparse P2_Kkt P4_Always P5_Session P6_Codes P9_Entry MAmd AmdBase AmdPre AmdOrder P12_Order P46_MinDegree.
Import ListNotations.
Open Scope Z_scope.
Open Scope res_scope.

(** ** Specification *)

(** The caller stored an entry that couples KKT index a (a row) with variable b. *)
Definition couples {F} (u : user F) (a b : Z) : Prop := 0 <= b < u_n u /\ exists x,
  (a < u_n u /\ stored (u_Pjc u) (u_Pir u) (u_Ppr u) a b x) \/
  (u_n u <= a < u_n u + u_pe u /\ exists ajc air apr bb, u_eqs u = Some (ajc, air, apr, bb) /\ stored ajc air apr (a - u_n u) b x) \/
  (u_n u + u_pe u <= a /\ stored (u_Gjc u) (u_Gir u) (u_Gpr u) (a - u_n u - u_pe u) b x).

(** ** Proof *)
Section Keep.
Variable A : Arith.

Lemma kkt_numeric_mat k : pw (kkt_numeric A k) (fun r => k_mat (snd r) = k_mat k).
Proof. unfold kkt_numeric. apply pw_skip. intros [d w] _. apply pw_ok. reflexivity. Qed.

Lemma ldlinitialsolve_mat k delta : pw (ldlinitialsolve A k delta) (fun r => k_mat (snd (fst r)) = k_mat k).
Proof.
  unfold ldlinitialsolve. apply pw_skip. intros [[[[Lp Parent] Lnz] Fl] Pinv] _. pskip. pskip.
  apply pw_bind. eapply pw_mono; [apply kkt_numeric_mat|]. intros [d k1] H. cbn [fst snd] in H.
  apply pw_skip. intros [Lti Ltp] _. cbv zeta. destruct (d =? _).
  - apply pw_skip. intros [dl b] _. apply pw_ok. cbn. exact H.
  - apply pw_ok. cbn. exact H.
Qed.

Lemma kkt_initialize_mat q : pw (kkt_initialize A q) (fun r => k_mat (q_kkt (snd r)) = k_mat (q_kkt q)).
Proof.
  unfold kkt_initialize. cbv zeta. pstep. pstep. pstep. apply pw_bind. eapply pw_mono; [apply ldlinitialsolve_mat|].
  intros [[ok k] delta] H. cbn [fst snd] in *. cbn in H. destruct ok.
  - pstep. pstep. pstep. pstep. pstep. destruct x6 as [mn mx]. pstep. pstep. pok. exact H.
  - repeat pstep; pok; exact H.
Qed.

(** The ordering package is called on the KKT matrix that the handle keeps. *)
Lemma setup_core_call amd n m p_arg P G AM c h b sd :
  pw (setup_core A amd n m p_arg P G AM c h b sd None) (fun q => let K := k_mat (q_kkt q) in exists P1,
    amd (sn K) (jc K) (ir K) (malloc Z (q_m q + q_n q + q_p q)) = Ok (AMD_RESULT (q_stats q), P1) /\ (0 <= AMD_RESULT (q_stats q) -> k_P (q_kkt q) = P1)).
Proof.
  assert (HP : forall (K : smat (car A)) np nf Pm res, setup_perm A amd K np nf None = Ok (Pm, res) ->
    exists P1, amd (sn K) (jc K) (ir K) (malloc Z np) = Ok (res, P1) /\ (0 <= res -> Pm = P1)).
  { intros K np nf Pm res E. unfold setup_perm in E. destruct (amd (sn K) (jc K) (ir K) _) as [[st P1]| |] eqn:Ea; try discriminate E. cbn [bind] in E.
    destruct (Z.ltb_spec st 0) as [Hs|Hs].
    - destruct (for_ _ _ _ P1) as [P2| |] in E; cbn [bind] in E; try discriminate E. injection E as <- <-. exists P1. split; [auto|lia].
    - injection E as <- <-. exists P1. auto. }
  unfold setup_core. cbv zeta. pskip. pskip. destruct AM as [M|].
  - pskip. apply pw_skip. intros [Pm res] E. cbv zeta. apply HP in E.
    apply pw_bind. intros [ok q] Ei. pose proof (kkt_initialize_mat _ _ Ei) as H1. pose proof (kkt_initialize_stats _ _ _ Ei) as [Hok [HF HS]].
    cbn [fst snd] in *. subst ok. apply pw_ok. rewrite H1, HS, (fr_kP _ _ _ HF), (fr_n _ _ _ HF), (fr_m _ _ _ HF), (fr_p _ _ _ HF). exact E.
  - pskip. apply pw_skip. intros [Pm res] E. cbv zeta. apply HP in E.
    apply pw_bind. intros [ok q] Ei. pose proof (kkt_initialize_mat _ _ Ei) as H1. pose proof (kkt_initialize_stats _ _ _ Ei) as [Hok [HF HS]].
    cbn [fst snd] in *. subst ok. apply pw_ok. rewrite H1, HS, (fr_kP _ _ _ HF), (fr_n _ _ _ HF), (fr_m _ _ _ HF), (fr_p _ _ _ HF). exact E.
Qed.

Lemma setup_call amd (u : user (car A)) q : u_perm u = None -> setup A amd u = Ok q -> let K := k_mat (q_kkt q) in exists P1,
    amd (sn K) (jc K) (ir K) (malloc Z (q_m q + q_n q + q_p q)) = Ok (AMD_RESULT (q_stats q), P1) /\ (0 <= AMD_RESULT (q_stats q) -> k_P (q_kkt q) = P1).
Proof.
  intros HP E. unfold setup, QP_SETUP in E. rewrite HP in E. revert q E.
  match goal with |- forall q, ?X = Ok q -> @?Y q => change (pw X Y) end.
  pskip. pskip. pskip. apply setup_core_call.
Qed.
End Keep.

Lemma entry_stored {F} n nz Jc Ir (Pr : arr F) a c : 0 <= c < n -> csc_arrays n n Jc Ir Pr nz -> has_entry Jc Ir a c <-> exists x, stored Jc Ir Pr a c x.
Proof.
  intros Hc [CP FL]. split.
  - intros [s [e [k [E1 [E2 [Hk E3]]]]]]. destruct (FL k) as [x Ex]; [|exists x, s, e, k; auto].
    assert (M : forall j, 0 <= j < n -> get 0 Jc j <= get 0 Jc (j + 1)).
    { intros j Hj. destruct (cp_mono _ _ _ _ _ CP j Hj) as [a' [b' [X1 [X2 L]]]]. rewrite (get_rd 0 _ _ _ X1), (get_rd 0 _ _ _ X2). auto. }
    pose proof (mono_steps _ n M 0 c ltac:(lia) ltac:(lia) ltac:(lia)). pose proof (mono_steps _ n M (c + 1) n ltac:(lia) ltac:(lia) ltac:(lia)).
    rewrite (get_rd 0 _ _ _ (cp_first _ _ _ _ _ CP)), (get_rd 0 _ _ _ E1) in *. rewrite (get_rd 0 _ _ _ (cp_last _ _ _ _ _ CP)), (get_rd 0 _ _ _ E2) in *. lia.
  - intros [x [s [e [k [E1 [E2 [Hk [E3 _]]]]]]]]. exists s, e, k. auto.
Qed.

Theorem C85_setup (A : Arith) mem alpha aggressive (u : user (car A)) q : div_ok A -> valid_user (amd_lib mem alpha aggressive) u -> covered u -> u_perm u = None ->
  setup A (amd_lib mem alpha aggressive) u = Ok q -> 0 <= AMD_RESULT (q_stats q) ->
  exists iwlen N st iw s0 s', given (u_N u) iwlen N st iw s0 /\
    (forall v w, 0 <= v < u_N u -> 0 <= w < u_N u -> In w (N v) <-> w <> v /\ (couples u v w \/ couples u w v)) /\
    AMD_2 (u_N u) iwlen (alpha (u_N u)) aggressive s0 = Ok s' /\ k_P (q_kkt q) = aLast s'.
Proof.
  intros Hdiv HV Hc HP HS Hr. destruct (C04_kkt_assembly A _ u q Hdiv HV HS Hc) as [E1 [E2 [CK [_ [_ [_ ST]]]]]].
  destruct (setup_call A _ u q HP HS) as [P1 [Ea EP]]. specialize (EP Hr). unfold amd_lib in Ea. rewrite E1 in Ea.
  destruct (setup_started A _ u q Hdiv HV HS) as [B [r SD]]. pose proof (sd_n _ _ _ _ _ SD) as [D1 [D2 [D3 _]]].
  pose proof (at_base _ _ _ _ (sd_at _ _ _ _ _ SD)) as BS. pose proof (valid_pe A _ u HV) as Hpe. pose proof (vu_n _ _ HV) as Hn. pose proof (vu_m _ _ HV) as Hm.
  assert (LP : zlen (malloc Z (q_m q + q_n q + q_p q)) = u_N u).
  { rewrite (b_n _ _ _ BS), (b_m _ _ _ BS), (b_p _ _ _ BS). rewrite zlen_malloc; unfold u_N; lia. }
  destruct (C85_order mem (alpha (u_N u)) aggressive (u_N u) _ _ _ _ _ _ (ca_pattern _ _ _ _ _ _ CK) LP ltac:(unfold u_N; lia) Ea) as [iwlen [N [st [iw [s0 [s' [G [IN [E2' EL]]]]]]]]].
  { intros X. rewrite X in Hr. unfold AMD_OUT_OF_MEMORY in Hr. lia. }
  exists iwlen, N, st, iw, s0, s'. split; auto. split; [|split; [auto|congruence]].
  assert (HE : forall a c, 0 <= a < u_N u -> 0 <= c < u_N u -> has_entry (jc (k_mat (q_kkt q))) (ir (k_mat (q_kkt q))) a c <->
     couples u a c \/ (u_n u <= c /\ couples u c a) \/ (u_n u + u_pe u <= c /\ a = c)).
  { intros a c Ha Hc'. rewrite (entry_stored _ _ _ _ _ _ _ Hc' CK). unfold couples. split.
    - intros [x Hx]. apply ST in Hx; auto. unfold kkt_stored, u_Astored in Hx. destruct Hx as [X|[X|[X|[X|[X|X]]]]].
      + left. split; [lia|]. exists x. left. tauto.
      + left. split; [lia|]. exists x. right. left. tauto.
      + left. split; [lia|]. exists x. right. right. tauto.
      + right. left. split; [lia|]. split; [lia|]. exists x. right. left. tauto.
      + right. left. split; [lia|]. split; [lia|]. exists x. right. right. tauto.
      + right. right. lia.
    - intros [[Hb [x X]]|[[Hg [Hb [x X]]]|X]].
      + exists x. apply ST; auto. unfold kkt_stored, u_Astored. destruct X as [X|[X|X]]; [left|right; left|right; right; left]; (split; [lia|]); tauto.
      + exists x. apply ST; auto. unfold kkt_stored, u_Astored. do 3 right. destruct X as [X|[X|X]]; [lia|left|right; left]; (split; [lia|]); split; try lia; tauto.
      + exists (fopp A (f1 A)). apply ST; auto. unfold kkt_stored. do 5 right. tauto. }
  intros v w Hv Hw. rewrite IN, !HE by auto. split.
  - intros [Ne H]. split; auto. destruct H as [[H|[[_ H]|[_ H]]]|[H|[[_ H]|[_ H]]]]; auto; exfalso; lia.
  - intros [Ne H]. split; auto. tauto.
Qed.
Print Assumptions C85_setup.

(** A case: the library's example without its permutation; in doubles the package returns 0 (C35_demo_order). *)
Lemma C85_setup_case mem : valid_user (amd_lib mem (fun _ => 24) true) (demo_own FA) /\ covered (demo_own FA) /\ u_perm (demo_own FA) = None.
Proof.
  destruct (C35_case FA) as [H1 [H2 H3]]. split; [apply valid_without; auto|]. split; [|exact H2]. exact (demo_covered FA).
Qed.
