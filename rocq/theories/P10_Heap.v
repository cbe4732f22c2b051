(** C25: setup followed by the matching cleanup gives back exactly the memory that was allocated, and never the
    caller's; the other two combinations do not. *)
From Coq Require Import ZArith List Bool Lia.
From Verif Require Import Res MHeap HeapSim.
Import ListNotations.
Open Scope Z_scope.

(** What holds of the symbolic final state. *)
Definition after (p : prog) (t : smem -> bool) : bool := match sexec p sstart with Some c => t c | None => false end.
Definition empty (c : smem) : bool := match s_heap c with [] => true | _ => false end.
Lemma after_ok p t : after p t = true -> exists c, sexec p sstart = Some c /\ t c = true.
Proof. unfold after. destruct (sexec p sstart); [eauto|discriminate]. Qed.
Lemma empty_ok c : empty c = true -> s_heap c = [].
Proof. unfold empty. destruct (s_heap c); [reflexivity|discriminate]. Qed.

(** Split on everything AMD_order leaves to the environment. *)
Local Ltac fin := vm_cast_no_check (eq_refl true).
Local Ltac amd_cases k Hk :=
  let e := fresh "e" in let J := fresh "J" in let L := fresh "L" in let V := fresh "V" in
  let Rp := fresh "Rp" in let Ri := fresh "Ri" in let S := fresh "S" in
  destruct k as [e J L V Rp Ri S]; unfold amd_choice_ok in Hk; cbn in Hk;
  destruct e as [e|]; [destruct Hk as [->|[->| ->]]; fin |];
  destruct L, V; [| fin | fin | fin];
  destruct J; [destruct Rp, Ri; [destruct S; fin | fin | fin | fin] | destruct S; fin].

Lemma sparse_run eqs perm k : amd_choice_ok k -> after (Seq (h_QP_SETUP eqs perm k) h_QP_CLEANUP) empty = true.
Proof. intros Hk. destruct eqs, perm; [fin | amd_cases k Hk | fin | amd_cases k Hk]. Qed.

Lemma dense_run eqs perm k : amd_choice_ok k -> after (Seq (h_QP_SETUP_dense eqs perm k) h_QP_CLEANUP_dense) empty = true.
Proof. intros Hk. destruct eqs, perm; [fin | amd_cases k Hk | fin | amd_cases k Hk]. Qed.

Lemma amd_run k : amd_choice_ok k -> after (fst (h_AMD_order k)) empty = true.
Proof. intros Hk. amd_cases k Hk. Qed.

Lemma run_balanced u H0 al p : allocator_ok al -> NoDup (addrs H0) -> after p empty = true ->
  exists s', exec al p (start u H0) = Ok s' /\ m_heap s' = H0 /\ forall a, In (EFree a) (m_log s') -> ~ In a (addrs H0).
Proof. intros Hal HN E. destruct (after_ok _ _ E) as [c [E1 E2]]. eapply balanced; eauto. apply empty_ok; auto. Qed.

(** Whatever the allocator returns (fresh blocks, or NULL for arrays), whatever is live beforehand, with or without
    equality constraints, with a caller's permutation or with any outcome of AMD_order: the sequence is free of
    double frees, invalid frees and NULL dereferences, the heap afterwards is the heap before, and none of the blocks
    that were live before (the caller's arrays, the permutation, other handles) is released on the way. *)
Definition gives_back (p : prog) : Prop :=
  forall al H0 u, allocator_ok al -> NoDup (addrs H0) ->
  exists s', exec al p (start u H0) = Ok s' /\ m_heap s' = H0 /\ forall a, In (EFree a) (m_log s') -> ~ In a (addrs H0).

Theorem C25_sparse eqs perm k : amd_choice_ok k -> gives_back (Seq (h_QP_SETUP eqs perm k) h_QP_CLEANUP).
Proof. intros Hk al H0 u Hal HN. apply run_balanced; auto. apply sparse_run; auto. Qed.

Theorem C25_dense eqs perm k : amd_choice_ok k -> gives_back (Seq (h_QP_SETUP_dense eqs perm k) h_QP_CLEANUP_dense).
Proof. intros Hk al H0 u Hal HN. apply run_balanced; auto. apply dense_run; auto. Qed.

(** AMD_order gives back its own workspace on every path. *)
Theorem C25_amd k : amd_choice_ok k -> gives_back (fst (h_AMD_order k)).
Proof. intros Hk al H0 u Hal HN. apply run_balanced; auto. apply amd_run; auto. Qed.

(** ** Crossing the pairs *)

(** QP_CLEANUP on a handle made by QP_SETUP_dense: the compressed-column arrays of P and G (and A) stay allocated. *)
Theorem C25_leak al H0 u eqs perm k : allocator_ok al -> (forall log h b, al log h b <> VNull) -> NoDup (addrs H0) ->
  amd_choice_ok k ->
  exists s' leaked, exec al (Seq (h_QP_SETUP_dense eqs perm k) h_QP_CLEANUP) (start u H0) = Ok s' /\
    m_heap s' = leaked ++ H0 /\ length leaked = if eqs then 9%nat else 6%nat.
Proof.
  intros Hal Hnn HN Hk.
  assert (E : after (Seq (h_QP_SETUP_dense eqs perm k) h_QP_CLEANUP) (fun c => Nat.eqb (length (s_heap c)) (if eqs then 9 else 6)%nat) = true).
  { destruct eqs, perm; [fin | amd_cases k Hk | fin | amd_cases k Hk]. }
  destruct (after_ok _ _ E) as [c [E1 E2]]. apply Nat.eqb_eq in E2. rewrite <- E2. eapply leftover; eauto.
Qed.

(** The log only grows. *)
Lemma store_log s p v s' : store s p v = Ok s' -> m_log s' = m_log s.
Proof.
  unfold store. destruct (rev (snd p)) as [|f l]; [intros E; injection E as <-; reflexivity|].
  destruct (load s (fst p, rev l)) as [w| |]; cbn; try discriminate. destruct w; try discriminate.
  unfold deref_block. destruct (assoc Z.eq_dec a (m_heap s)); cbn; [intros E; injection E as <-; reflexivity|discriminate].
Qed.

Lemma exec_log al p : forall s s', exec al p s = Ok s' -> forall e, In e (m_log s) -> In e (m_log s').
Proof.
  induction p as [|p nb|p|p e0|p1 IH1 p2 IH2|p q IH|p z q IH]; intros s s'; cbn [exec].
  - intros E; injection E as <-; auto.
  - destruct (al (m_log s) (m_heap s) nb); intros E e He; rewrite (store_log _ _ _ _ E); cbn; auto.
  - destruct (load s p) as [v| |]; cbn; try discriminate. destruct v; try discriminate.
    + destruct (assoc Z.eq_dec a (m_heap s)); [|discriminate]. intros E e He; injection E as <-. right. exact He.
    + intros E; injection E as <-; auto.
  - destruct (match e0 with SNull => Ok VNull | SInt z => Ok (VInt z) | SPath q => load s q end) as [v| |]; cbn; try discriminate.
    intros E e He. rewrite (store_log _ _ _ _ E). exact He.
  - destruct (exec al p1 s) as [s1| |] eqn:E1; cbn; try discriminate. intros E2 e He. eapply IH2; eauto.
  - destruct (load s p) as [v| |]; cbn; try discriminate. destruct v; try discriminate; [apply IH|intros E; injection E as <-; auto].
  - destruct (load s p) as [v| |]; cbn; try discriminate. destruct v; try discriminate.
    destruct (z0 =? z); [intros E; injection E as <-; auto|apply IH].
Qed.

Lemma exec_fuel al p : forall s, exec al p s <> NoFuel.
Proof.
  assert (L : forall h l v, follow h v l <> NoFuel).
  { intros h. induction l as [|f l IH]; intros v; cbn; [discriminate|]. unfold deref_block.
    destruct v; cbn; try discriminate. destruct (assoc Z.eq_dec a h); cbn; try discriminate.
    destruct (assoc field_eq_dec f b); [apply IH|discriminate]. }
  assert (L' : forall s p, load s p <> NoFuel).
  { intros s q. unfold load. destruct (assoc var_eq_dec (fst q) (m_env s)); [apply L|discriminate]. }
  assert (S' : forall s p v, store s p v <> NoFuel).
  { intros s q v. unfold store. destruct (rev (snd q)); [discriminate|].
    destruct (load s (fst q, rev l)) as [w| |] eqn:E; cbn; try discriminate; [|exfalso; eapply L'; eauto].
    destruct w; try discriminate. unfold deref_block. destruct (assoc Z.eq_dec a (m_heap s)); cbn; discriminate. }
  induction p as [|p nb|p|p e0|p1 IH1 p2 IH2|p q IH|p z q IH]; intros s; cbn [exec].
  - discriminate.
  - destruct (al (m_log s) (m_heap s) nb); apply S'.
  - destruct (load s p) as [v| |] eqn:E; cbn; try discriminate; [|exfalso; eapply L'; eauto].
    destruct v; try discriminate. destruct (assoc Z.eq_dec a (m_heap s)); discriminate.
  - destruct e0; cbn; try apply S'. destruct (load s p0) as [v| |] eqn:E; cbn; try discriminate; [apply S'|exfalso; eapply L'; eauto].
  - destruct (exec al p1 s) as [s1| |] eqn:E1; cbn; try discriminate; [apply IH2|exfalso; eapply IH1; eauto].
  - destruct (load s p) as [v| |] eqn:E; cbn; try discriminate; [|exfalso; eapply L'; eauto]. destruct v; try discriminate. apply IH.
  - destruct (load s p) as [v| |] eqn:E; cbn; try discriminate; [|exfalso; eapply L'; eauto]. destruct v; try discriminate.
    destruct (z0 =? z); [discriminate|apply IH].
Qed.

Lemma exec_seq al a b s s1 : exec al a s = Ok s1 -> exec al (Seq a b) s = exec al b s1.
Proof. intros E. cbn. rewrite E. reflexivity. Qed.

Definition snd_of (p : prog) : prog := match p with Seq _ b => b | _ => Skip end.

(** QP_CLEANUP_dense on a handle made by QP_SETUP: free() is called on the caller's array Ppr. *)
Theorem C25_frees_caller al H0 u eqs perm k a : allocator_ok al -> NoDup (addrs H0) -> amd_choice_ok k ->
  u a_Ppr = VPtr a -> In a (addrs H0) ->
  match exec al (Seq (h_QP_SETUP eqs perm k) h_QP_CLEANUP_dense) (start u H0) with
  | Ok s' => In (EFree a) (m_log s')
  | Ub _ => True
  | NoFuel => False
  end.
Proof.
  intros Hal HN Hk Ea Ha.
  assert (E : after (Seq (h_QP_SETUP eqs perm k) h_free_vectors)
      (fun c => match sload c (QP [f_P; f_pr]) with Some (SArg a_Ppr) => true | _ => false end) = true).
  { destruct eqs, perm; [fin | amd_cases k Hk | fin | amd_cases k Hk]. }
  destruct (after_ok _ _ E) as [c [E1 E2]]. clear E.
  destruct (sload c (QP [f_P; f_pr])) as [[| [] | |]|] eqn:E3; try discriminate. clear E2. rename E3 into E2.
  destruct (sexec_ok u H0 False al Hal ltac:(tauto) _ _ _ _ _ (R_start u H0 False HN) E1) as [f [s1 [X1 HR]]].
  destruct (exec al (Seq (h_QP_SETUP eqs perm k) h_QP_CLEANUP_dense) (start u H0)) as [s'| |] eqn:EX; auto.
  2: eapply exec_fuel; eauto.
  change h_QP_CLEANUP_dense with (Seq h_free_vectors (Seq (Free (QP [f_P; f_pr])) (snd_of (snd_of h_QP_CLEANUP_dense)))) in EX.
  generalize dependent (snd_of (snd_of h_QP_CLEANUP_dense)). intros rest EX.
  cbn [exec] in EX, X1. destruct (exec al (h_QP_SETUP eqs perm k) (start u H0)) as [s0| |]; cbn [bind] in EX, X1; try discriminate.
  rewrite X1 in EX. cbn [bind] in EX.
  destruct (sload_ok _ _ _ _ _ _ _ _ HR E2) as [EL _]. cbn in EL. rewrite Ea in EL.
  unfold QP in EL, EX. rewrite EL in EX. cbn [bind] in EX.
  destruct (assoc Z.eq_dec a (m_heap s1)); [|discriminate]. cbn [bind] in EX.
  eapply exec_log; [exact EX|]. left. reflexivity.
Qed.

(** ** Cases *)

(** A bump allocator, and one that returns NULL for every array. *)
Definition bump : allocator := fun log h _ => VPtr (1 + fold_right Z.max 0 (addrs h)).
Definition starving : allocator := fun log h nb => if nb then VNull else bump log h nb.

Lemma bump_fresh h : ~ In (1 + fold_right Z.max 0 (addrs h)) (addrs h).
Proof.
  intros H. assert (forall l x, In x l -> x <= fold_right Z.max 0 l).
  { induction l as [|y l IH]; cbn; intros x Hx; [contradiction|]. destruct Hx as [->|Hx]; [lia|]. specialize (IH _ Hx). lia. }
  specialize (H0 _ _ H). lia.
Qed.
Example bump_ok : allocator_ok bump.
Proof. intros log h nb. cbn. apply bump_fresh. Qed.
Example starving_ok : allocator_ok starving.
Proof. intros log h nb. unfold starving. destruct nb; [reflexivity|]. apply bump_fresh. Qed.

(** The caller's blocks: twelve arrays and a permutation at addresses 1 to 13. *)
Definition callers_args (v : var) : value :=
  match v with
  | a_Pjc => VPtr 1 | a_Pir => VPtr 2 | a_Ppr => VPtr 3 | a_Ajc => VPtr 4 | a_Air => VPtr 5 | a_Apr => VPtr 6
  | a_Gjc => VPtr 7 | a_Gir => VPtr 8 | a_Gpr => VPtr 9 | a_c => VPtr 10 | a_h => VPtr 11 | a_b => VPtr 12 | a_Permut => VPtr 13
  | _ => VNull
  end.
Definition callers_heap : heap := map (fun a => (a, [])) [1; 2; 3; 4; 5; 6; 7; 8; 9; 10; 11; 12; 13].
Definition no_fail : amd_choice := mkAmdChoice None false true true true true true.
Definition mallocs (l : list event) : nat := length (filter (fun e => match e with EMalloc _ => true | _ => false end) l).
Definition frees (l : list event) : nat := length (filter (fun e => match e with EFree _ => true | _ => false end) l).

Example callers_heap_ok : NoDup (addrs callers_heap).
Proof. cbn. repeat constructor; cbn; intuition discriminate. Qed.

Example C25_sparse_case : exists s', exec bump (Seq (h_QP_SETUP true false no_fail) h_QP_CLEANUP) (start callers_args callers_heap) = Ok s' /\
  m_heap s' = callers_heap /\ mallocs (m_log s') = 56%nat /\ frees (m_log s') = 56%nat.
Proof.
  destruct (exec bump (Seq (h_QP_SETUP true false no_fail) h_QP_CLEANUP) (start callers_args callers_heap)) eqn:E; vm_compute in E; try discriminate.
  injection E as <-. eexists. split; [reflexivity|]. repeat split.
Qed.

Example C25_crossed_case : exists s', exec bump (Seq (h_QP_SETUP true true no_fail) h_QP_CLEANUP_dense) (start callers_args callers_heap) = Ok s' /\
  addrs (m_heap s') = [10; 11; 12; 13].
Proof.
  destruct (exec bump (Seq (h_QP_SETUP true true no_fail) h_QP_CLEANUP_dense) (start callers_args callers_heap)) eqn:E; vm_compute in E; try discriminate.
  injection E as <-. eexists. split; [reflexivity|]. repeat split.
Qed.

Print Assumptions C25_sparse.
Print Assumptions C25_dense.
Print Assumptions C25_amd.
Print Assumptions C25_leak.
Print Assumptions C25_frees_caller.
