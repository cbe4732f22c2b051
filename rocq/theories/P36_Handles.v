(** C76: any number of handles, sparse and dense, set up and cleaned up in any order, among the caller's own malloc and
    free: every release is of a live block, every handle gives back exactly its own blocks, and nothing remains. *)
From Coq Require Import ZArith List Bool Lia Permutation.
From Verif Require Import Res MHeap HeapSim P10_Heap.
Import ListNotations.
Open Scope Z_scope.

(** ** The client *)

Inductive kind : Type := sparse | dense.

Definition setup_of (kd : kind) (eqs perm : bool) (k : amd_choice) : prog :=
  match kd with sparse => h_QP_SETUP eqs perm k | dense => h_QP_SETUP_dense eqs perm k end.
Definition cleanup_of (kd : kind) : prog := match kd with sparse => h_QP_CLEANUP | dense => h_QP_CLEANUP_dense end.

(** What a client does: set up a handle and keep it in slot [i]; clean up the handle in slot [i]; malloc and free blocks
    of its own.  Each allocation comes with whatever the allocator does at that moment. *)
Inductive op : Type :=
  | Make (i : nat) (kd : kind) (eqs perm : bool) (k : amd_choice) (u : var -> value) (al : allocator)
  | Drop (i : nat)
  | Take (al : allocator)
  | Give (a : Z).

(** The heap, the addresses the client obtained from malloc itself, and its handles. *)
Record world : Type := mkWorld { w_heap : heap; w_own : list Z; w_live : list (nat * (kind * value)) }.

Definition step (w : world) (o : op) : res world :=
  match o with
  | Make i kd eqs perm k u al =>
      bind (exec al (setup_of kd eqs perm k) (start u (w_heap w))) (fun s =>
      bind (load s (loc v_myQP)) (fun q =>
      Ok (mkWorld (m_heap s) (w_own w) ((i, (kd, q)) :: w_live w))))
  | Drop i =>
      match assoc Nat.eq_dec i (w_live w) with
      | Some (kd, q) =>
          bind (exec (fun _ _ _ => VNull) (cleanup_of kd) (mkMem (w_heap w) [(v_myQP, q)] [])) (fun s =>
          Ok (mkWorld (m_heap s) (w_own w) (remove_key Nat.eq_dec i (w_live w))))
      | None => Ub Undef
      end
  | Take al =>
      match al [] (w_heap w) true with
      | VPtr a => Ok (mkWorld ((a, []) :: w_heap w) (a :: w_own w) (w_live w))
      | _ => Ok w
      end
  | Give a =>
      match assoc Z.eq_dec a (w_heap w) with
      | Some _ => Ok (mkWorld (remove_key Z.eq_dec a (w_heap w)) (remove Z.eq_dec a (w_own w)) (w_live w))
      | None => Ub Undef
      end
  end.

Fixpoint run (ops : list op) (w : world) : res world :=
  match ops with [] => Ok w | o :: ops => bind (step w o) (run ops) end.

(** What the client has to respect: fill only empty slots, clean up only handles it has, free only its own blocks. *)
Definition allowed (w : world) (o : op) : Prop :=
  match o with
  | Make i _ _ _ k _ al => ~ In i (map fst (w_live w)) /\ amd_choice_ok k /\ allocator_ok al
  | Drop i => In i (map fst (w_live w))
  | Take al => allocator_ok al
  | Give a => In a (w_own w)
  end.
Fixpoint orderly (ops : list op) (w : world) : Prop :=
  match ops with [] => True | o :: ops => allowed w o /\ forall w', step w o = Ok w' -> orderly ops w' end.

(** ** Releasing does not depend on the order in which the heap is listed *)

Lemma assoc_perm {V} (l1 l2 : list (Z * V)) a : Permutation l1 l2 -> NoDup (map fst l1) -> assoc Z.eq_dec a l1 = assoc Z.eq_dec a l2.
Proof.
  intros P N. pose proof (Permutation_NoDup (Permutation_map fst P) N) as N2.
  destruct (assoc Z.eq_dec a l1) as [v|] eqn:E.
  - symmetry. apply assoc_in; [exact N2|]. apply in_assoc in E. eapply Permutation_in; eauto.
  - destruct (assoc Z.eq_dec a l2) as [v|] eqn:E2; [|reflexivity]. apply in_assoc in E2.
    apply (Permutation_in _ (Permutation_sym P)) in E2. rewrite (assoc_in Z.eq_dec a v l1 N E2) in E. discriminate.
Qed.

Lemma remove_perm {V} (l1 l2 : list (Z * V)) a : Permutation l1 l2 -> NoDup (map fst l1) ->
  Permutation (remove_key Z.eq_dec a l1) (remove_key Z.eq_dec a l2).
Proof.
  induction 1 as [|[k v] l1 l2 P IH|[k v] [k' v'] l|l1 l2 l3 P1 IH1 P2 IH2]; intros N.
  - constructor.
  - cbn in *. inversion N; subst. destruct (Z.eq_dec a k); auto.
  - cbn in *. inversion N as [|? ? N1 N2]; subst. destruct (Z.eq_dec a k'), (Z.eq_dec a k); subst; auto using perm_swap.
    exfalso. apply N1. left. reflexivity.
  - eapply perm_trans; [apply IH1; auto|]. apply IH2. eapply Permutation_NoDup; [apply Permutation_map; exact P1|exact N].
Qed.

(** Programs that only test and release. *)
Fixpoint frees_only (p : prog) : bool :=
  match p with
  | Skip | Free _ => true
  | Alloc _ _ | Assign _ _ => false
  | Seq a b => frees_only a && frees_only b
  | IfPtr _ a | IfNe _ _ a => frees_only a
  end.

Lemma follow_perm h1 h2 : Permutation h1 h2 -> NoDup (addrs h1) -> forall l v, follow h1 v l = follow h2 v l.
Proof.
  intros P N. induction l as [|f l IH]; intros v; cbn; [reflexivity|]. unfold deref_block. destruct v; cbn; auto.
  rewrite (assoc_perm h1 h2) by assumption. destruct (assoc Z.eq_dec a h2); cbn; auto. destruct (assoc field_eq_dec f b); auto.
Qed.

Lemma exec_perm al p : frees_only p = true -> forall s1 s2 s1', Permutation (m_heap s1) (m_heap s2) -> NoDup (addrs (m_heap s1)) ->
  m_env s1 = m_env s2 -> exec al p s1 = Ok s1' ->
  exists s2', exec al p s2 = Ok s2' /\ Permutation (m_heap s1') (m_heap s2') /\ NoDup (addrs (m_heap s1')) /\ m_env s1' = m_env s2'.
Proof.
  assert (L : forall s1 s2 q, Permutation (m_heap s1) (m_heap s2) -> NoDup (addrs (m_heap s1)) -> m_env s1 = m_env s2 -> load s2 q = load s1 q).
  { intros s1 s2 q P N E. unfold load. rewrite <- E. destruct (assoc var_eq_dec (fst q) (m_env s1)); auto. symmetry. apply follow_perm; auto. }
  induction p as [|p nb|p|p e|a IHa b IHb|p a IHa|p z a IHa]; cbn [frees_only exec]; try discriminate; intros HF s1 s2 s1' P N E X.
  - injection X as <-. eauto.
  - rewrite (L s1 s2) by assumption. destruct (load s1 p) as [v| |]; cbn [bind] in *; try discriminate. destruct v; try discriminate.
    + rewrite <- (assoc_perm (m_heap s1) (m_heap s2)) by assumption. destruct (assoc Z.eq_dec a (m_heap s1)); try discriminate.
      injection X as <-. eexists. split; [reflexivity|]. cbn. split; [apply remove_perm; auto|]. split; [|exact E]. apply NoDup_remove_key. exact N.
    + injection X as <-. eauto.
  - apply andb_prop in HF. destruct HF as [Fa Fb]. destruct (exec al a s1) as [t1| |] eqn:E1; cbn [bind] in X; try discriminate.
    destruct (IHa Fa _ _ _ P N E E1) as [t2 [-> [P2 [N2 E2]]]]. cbn [bind]. eapply IHb; eauto.
  - rewrite (L s1 s2) by assumption. destruct (load s1 p) as [v| |]; cbn [bind] in *; try discriminate. destruct v; try discriminate; [eauto|].
    injection X as <-. eauto.
  - rewrite (L s1 s2) by assumption. destruct (load s1 p) as [v| |]; cbn [bind] in *; try discriminate. destruct v; try discriminate.
    destruct (z0 =? z); [injection X as <-|]; eauto.
Qed.

Lemma cleanup_frees kd : frees_only (cleanup_of kd) = true.
Proof. destruct kd; reflexivity. Qed.

(** ** The blocks of one handle *)

(** [r] is what cleaning up the handle [q] releases, whatever else is on the heap. *)
Definition block_of (kd : kind) (q : value) (r : heap) : Prop :=
  (exists a, q = VPtr a /\ In a (addrs r)) /\
  forall rest, NoDup (addrs (r ++ rest)) ->
  exists s, exec (fun _ _ _ => VNull) (cleanup_of kd) (mkMem (r ++ rest) [(v_myQP, q)] []) = Ok s /\ m_heap s = rest.

Definition handle_only (c : smem) : option smem :=
  match assoc var_eq_dec v_myQP (s_env c) with Some q => Some (mkSmem (s_heap c) [(v_myQP, q)] (s_next c)) | None => None end.
Definition undone (kd : kind) (c : smem) : bool :=
  match assoc var_eq_dec v_myQP (s_env c) with
  | Some (SNew i false) => match assoc Nat.eq_dec i (s_heap c) with Some _ => true | None => false end
  | _ => false
  end &&
  match handle_only c with Some c => match sexec (cleanup_of kd) c with Some c' => empty c' | None => false end | None => false end.

(** How many blocks a handle owns. *)
Definition blocks (kd : kind) (eqs perm : bool) : nat :=
  (match kd with sparse => 40 | dense => 46 end + (if eqs then match kd with sparse => 8 | dense => 11 end else 0) + (if perm then 0 else 1))%nat.

Local Ltac fin := vm_cast_no_check (eq_refl true).
Local Ltac amd_cases k Hk :=
  let e := fresh "e" in let J := fresh "J" in let L := fresh "L" in let V := fresh "V" in
  let Rp := fresh "Rp" in let Ri := fresh "Ri" in let S := fresh "S" in
  destruct k as [e J L V Rp Ri S]; unfold amd_choice_ok in Hk; cbn in Hk;
  destruct e as [e|]; [destruct Hk as [->|[->| ->]]; fin |];
  destruct L, V; [| fin | fin | fin];
  destruct J; [destruct Rp, Ri; [destruct S; fin | fin | fin | fin] | destruct S; fin].

Lemma setup_run kd eqs perm k : amd_choice_ok k ->
  after (setup_of kd eqs perm k) (fun c => undone kd c && Nat.eqb (length (s_heap c)) (blocks kd eqs perm)) = true.
Proof. intros Hk. destruct kd, eqs, perm; [fin | amd_cases k Hk | fin | amd_cases k Hk | fin | amd_cases k Hk | fin | amd_cases k Hk]. Qed.

(** Setup adds blocks in front of the heap, leaves the rest as it is, and the blocks are the handle's. *)
Lemma setup_block kd eqs perm k u al H (nn : Prop) : amd_choice_ok k -> allocator_ok al -> (nn -> forall log h b, al log h b <> VNull) ->
  NoDup (addrs H) ->
  exists s q r, exec al (setup_of kd eqs perm k) (start u H) = Ok s /\ load s (loc v_myQP) = Ok q /\ m_heap s = r ++ H /\
    NoDup (addrs (r ++ H)) /\ block_of kd q r /\ (length r <= blocks kd eqs perm)%nat /\ (nn -> length r = blocks kd eqs perm).
Proof.
  intros Hk Hal Hnn HN. destruct (after_ok _ _ (setup_run kd eqs perm k Hk)) as [c [E1 E2]].
  apply andb_prop in E2. destruct E2 as [E2 E3]. apply Nat.eqb_eq in E3.
  destruct (sexec_ok u H nn al Hal Hnn _ _ _ _ _ (R_start u H nn HN) E1) as [f [s [X HR]]].
  unfold undone, handle_only in E2. apply andb_prop in E2. destruct E2 as [E0 E2]. destruct (assoc var_eq_dec v_myQP (s_env c)) as [q|] eqn:Eq; [|discriminate].
  destruct (sexec (cleanup_of kd) _) as [c'|] eqn:E4; [|discriminate]. apply empty_ok in E2.
  exists s, (cv u f q), (ch u f (s_heap c)). split; [exact X|]. split.
  { apply (sload_ok u H nn f c s (loc v_myQP) q HR). unfold sload, loc. cbn [fst snd]. rewrite Eq. reflexivity. }
  split; [exact (r_heap _ _ _ _ _ _ HR)|]. split; [rewrite <- (r_heap _ _ _ _ _ _ HR); exact (r_nodup _ _ _ _ _ _ HR)|]. split.
  - split.
    { destruct q as [j [|]| | |]; try discriminate. destruct (assoc Nat.eq_dec j (s_heap c)) as [b|] eqn:Ej; [|discriminate].
      apply in_assoc in Eq. pose proof (r_evals _ _ _ _ _ _ HR _ _ Eq) as [_ Hj]. cbn [cv]. destruct (f j) as [a| |] eqn:Ef; try contradiction; try discriminate.
      exists a. split; [reflexivity|]. apply in_assoc in Ej. pose proof (ch_in u f _ _ _ _ Ej Ef) as Hin. apply (in_map fst) in Hin. exact Hin. }
    intros rest N.
    assert (HR' : R u rest False f (mkSmem (s_heap c) [(v_myQP, q)] (s_next c)) (mkMem (ch u f (s_heap c) ++ rest) [(v_myQP, cv u f q)] [])).
    { destruct HR as [_ _ _ H4 H5 H6 H7 _ _]. split; cbn; auto; try tauto.
      intros x v [E|[]]. injection E as _ <-. apply in_assoc in Eq. eauto. }
    assert (Hno : allocator_ok bump) by exact bump_ok.
    destruct (sexec_ok u rest False bump Hno ltac:(tauto) _ _ _ _ _ HR' E4) as [f' [s' [X' R']]].
    assert (A : forall al1 al2 p, frees_only p = true -> forall t, exec al1 p t = exec al2 p t).
    { clear. intros al1 al2. induction p as [|p nb|p|p e|a IHa b IHb|p a IHa|p z a IHa]; cbn [frees_only exec]; try discriminate; intros HF t; auto.
      - apply andb_prop in HF. destruct HF as [Fa Fb]. rewrite (IHa Fa). destruct (exec al2 a t); cbn; auto.
      - destruct (load t p) as [[| |]| |]; cbn; auto.
      - destruct (load t p) as [[| |]| |]; cbn; auto. destruct (z0 =? z); auto. }
    exists s'. rewrite (A _ bump _ (cleanup_frees kd)). split; [exact X'|]. rewrite (r_heap _ _ _ _ _ _ R'), E2. reflexivity.
  - rewrite <- E3. split.
    + clear. unfold ch. induction (s_heap c) as [|[i b] l IH]; cbn; [lia|]. rewrite app_length. unfold ch1 at 1. cbn. destruct (f i); cbn; lia.
    + intros N. assert (L : forall i b, In (i, b) (s_heap c) -> exists a, f i = VPtr a).
      { intros i b Hi. apply (r_nn _ _ _ _ _ _ HR N). eapply (r_lt _ _ _ _ _ _ HR); eauto. }
      clear - L. unfold ch. induction (s_heap c) as [|[i b] l IH]; cbn; [lia|]. rewrite app_length. rewrite IH by (intros; eapply L; right; eauto).
      unfold ch1. cbn. destruct (L i b (or_introl eq_refl)) as [a ->]. reflexivity.
Qed.

(** ** The invariant *)

(** The heap splits into the blocks of the handles and the client's own, [own]; [parts] lists the handles with theirs. *)
Record split_world (w : world) (parts : list (nat * (kind * value) * heap)) (own : heap) : Prop := mkSplit {
  sp_perm : Permutation (w_heap w) (flat_map snd parts ++ own);
  sp_nodup : NoDup (addrs (w_heap w));
  sp_live : w_live w = map fst parts;
  sp_slots : NoDup (map fst (w_live w));
  sp_own : w_own w = addrs own;
  sp_blocks : Forall (fun e => block_of (fst (snd (fst e))) (snd (snd (fst e))) (snd e)) parts
}.

Lemma remove_addr (own : heap) a : NoDup (addrs own) -> remove Z.eq_dec a (addrs own) = addrs (remove_key Z.eq_dec a own).
Proof.
  unfold addrs. induction own as [|[k b] own IH]; cbn; intros N; [reflexivity|]. inversion N as [|? ? N1 N2]; subst.
  destruct (Z.eq_dec a k) as [->|]; [|cbn; rewrite IH; auto]. apply notin_remove. exact N1.
Qed.

Lemma remove_part (parts : list (nat * (kind * value) * heap)) i kd q : NoDup (map fst (map fst parts)) ->
  assoc Nat.eq_dec i (map fst parts) = Some (kd, q) ->
  exists r l1 l2, parts = l1 ++ (i, (kd, q), r) :: l2 /\ remove_key Nat.eq_dec i (map fst parts) = map fst (l1 ++ l2).
Proof.
  induction parts as [|[[j e] r] parts IH]; cbn; [discriminate|]. intros N E. inversion N as [|? ? N1 N2]; subst.
  destruct (Nat.eq_dec i j) as [->|].
  - injection E as ->. exists r, [], parts. split; reflexivity.
  - destruct (IH N2 E) as [r' [l1 [l2 [-> Er]]]]. exists r', ((j, e, r) :: l1), l2. split; [reflexivity|]. cbn. rewrite Er. reflexivity.
Qed.

Lemma assoc_live (l : list (nat * (kind * value))) i : In i (map fst l) -> exists e, assoc Nat.eq_dec i l = Some e.
Proof. induction l as [|[j e] l IH]; cbn; [tauto|]. intros [->|H]; destruct (Nat.eq_dec i _); eauto; congruence. Qed.

(** How many blocks each live handle owns, from the calls alone. *)
Definition account (acc : list (nat * nat)) (o : op) : list (nat * nat) :=
  match o with
  | Make i kd eqs perm _ _ _ => (i, blocks kd eqs perm) :: acc
  | Drop i => remove_key Nat.eq_dec i acc
  | _ => acc
  end.
Definition total (acc : list (nat * nat)) : nat := fold_right (fun e n => (snd e + n)%nat) 0%nat acc.

(** The allocator the call meets never fails. *)
Definition generous (o : op) : Prop :=
  match o with Make _ _ _ _ _ _ al | Take al => forall log h b, al log h b <> VNull | _ => True end.

Definition sized (nn : Prop) (parts : list (nat * (kind * value) * heap)) (acc : list (nat * nat)) : Prop :=
  Forall2 (fun e n => fst n = fst (fst e) /\ (length (snd e) <= snd n)%nat /\ (nn -> length (snd e) = snd n)) parts acc.

Lemma sized_slots nn parts acc : sized nn parts acc -> map fst acc = map fst (map fst parts).
Proof. induction 1 as [|e n parts acc [E _] _ IH]; cbn; [reflexivity|]. rewrite E, IH. reflexivity. Qed.

Lemma sized_drop nn l1 i e r l2 acc : sized nn (l1 ++ (i, e, r) :: l2) acc -> NoDup (map fst (map fst (l1 ++ (i, e, r) :: l2))) ->
  sized nn (l1 ++ l2) (remove_key Nat.eq_dec i acc).
Proof.
  revert acc. induction l1 as [|[[j e'] r'] l1 IH]; intros acc H N; cbn in *; inversion H as [|? [j0 n] ? acc' [E F] H']; subst; cbn in *; subst j0.
  - destruct (Nat.eq_dec i i); [exact H'|congruence].
  - inversion N as [|? ? N1 N2]; subst. destruct (Nat.eq_dec i j) as [<-|].
    + exfalso. apply N1. rewrite !map_app. apply in_app_iff. right. left. reflexivity.
    + constructor; [cbn; auto|]. apply IH; assumption.
Qed.

Lemma sized_total nn parts acc : sized nn parts acc -> (length (flat_map snd parts) <= total acc)%nat /\ (nn -> length (flat_map snd parts) = total acc).
Proof.
  induction 1 as [|e n parts acc [_ [H1 H2]] _ [I1 I2]]; [cbn; auto|]. cbn [flat_map]. rewrite app_length.
  change (total (n :: acc)) with (snd n + total acc)%nat. split; [lia|]. intros X. rewrite (H2 X), (I2 X). reflexivity.
Qed.

Lemma step_split (nn : Prop) w parts own o acc : split_world w parts own -> allowed w o -> (nn -> generous o) -> sized nn parts acc ->
  exists w' parts' own', step w o = Ok w' /\ split_world w' parts' own' /\ sized nn parts' (account acc o) /\
    own' = match o with
           | Take al => match al [] (w_heap w) true with VPtr a => (a, []) :: own | _ => own end
           | Give a => remove_key Z.eq_dec a own
           | _ => own
           end.
Proof.
  intros [P N L S O B] A Hgen HZ. destruct o as [i kd eqs perm k u al|i|al|a]; cbn [step allowed generous account] in *.
  - destruct A as [A1 [A2 A3]]. destruct (setup_block kd eqs perm k u al (w_heap w) nn A2 A3 Hgen N) as [s [q [r [X [Lq [Hh [N' [Bq HL]]]]]]]].
    rewrite X. cbn [bind]. rewrite Lq. cbn [bind]. eexists. exists ((i, (kd, q), r) :: parts), own. split; [reflexivity|]. split; [|split; [|reflexivity]].
    2:{ constructor; [cbn; auto|exact HZ]. }
    apply mkSplit; cbn.
    + rewrite Hh. rewrite <- app_assoc. apply Permutation_app_head. exact P.
    + rewrite Hh. exact N'.
    + rewrite L. reflexivity.
    + constructor; assumption.
    + exact O.
    + constructor; [exact Bq|exact B].
  - destruct (assoc_live _ _ A) as [[kd q] E]. rewrite E. rewrite L in E, S.
    destruct (remove_part _ _ _ _ S E) as [r [l1 [l2 [-> Er]]]].
    assert (Br : block_of kd q r) by (apply Forall_app in B; destruct B as [_ B]; inversion B; assumption).
    assert (PP : Permutation (w_heap w) (r ++ (flat_map snd (l1 ++ l2) ++ own))).
    { eapply perm_trans; [exact P|]. rewrite !flat_map_app. cbn. rewrite <- !app_assoc. rewrite Permutation_app_swap_app. reflexivity. }
    assert (NN : NoDup (addrs (r ++ (flat_map snd (l1 ++ l2) ++ own)))) by (eapply Permutation_NoDup; [apply Permutation_map; exact PP|exact N]).
    destruct Br as [_ Br]. destruct (Br _ NN) as [s1 [X1 H1]].
    destruct (exec_perm _ _ (cleanup_frees kd) (mkMem (r ++ (flat_map snd (l1 ++ l2) ++ own)) [(v_myQP, q)] []) (mkMem (w_heap w) [(v_myQP, q)] []) s1
        (Permutation_sym PP) NN eq_refl X1) as [s2 [X2 [P2 [N2 _]]]].
    rewrite X2. cbn [bind]. eexists. exists (l1 ++ l2), own. split; [reflexivity|]. split; [|split; [|reflexivity]].
    2:{ eapply sized_drop; eauto. }
    apply mkSplit; cbn.
    + rewrite <- H1. apply Permutation_sym. exact P2.
    + eapply Permutation_NoDup; [apply Permutation_map; exact P2|exact N2].
    + rewrite L. exact Er.
    + rewrite L. apply NoDup_remove_key. exact S.
    + exact O.
    + apply Forall_app in B. destruct B as [B1 B2]. inversion B2. apply Forall_app. split; assumption.
  - specialize (A [] (w_heap w) true). destruct (al [] (w_heap w) true) as [a| |]; [| |contradiction]; eexists; exists parts; eexists; (split; [reflexivity|]); (split; [|split; [exact HZ|reflexivity]]).
    + apply mkSplit with (parts := parts); cbn; auto.
      * rewrite P. apply Permutation_middle.
      * constructor; auto.
      * rewrite O. reflexivity.
    + apply mkSplit with (parts := parts); auto.
  - rewrite O in A. pose proof (Permutation_NoDup (Permutation_map fst P) N) as NP.
    assert (Ia : In a (addrs (flat_map snd parts ++ own))) by (unfold addrs; rewrite map_app; apply in_app_iff; right; exact A).
    assert (Ha : In a (addrs (w_heap w))) by (eapply Permutation_in; [apply Permutation_map; apply Permutation_sym; exact P|exact Ia]).
    destruct (assoc Z.eq_dec a (w_heap w)) as [b|] eqn:E.
    2:{ exfalso. unfold addrs in Ha. apply in_map_iff in Ha. destruct Ha as [[a' b] [E1 Hb]]. cbn in E1. subst a'.
        rewrite (assoc_in Z.eq_dec a b _ N Hb) in E. discriminate. }
    assert (Na : ~ In a (addrs (flat_map snd parts)) /\ NoDup (addrs own)).
    { unfold addrs in *. rewrite map_app in NP. clear - NP A. induction (map fst (flat_map snd parts)) as [|x l IH]; cbn in *; [tauto|].
      inversion NP as [|? ? N1 N2]; subst. destruct (IH N2). split; auto. intros [->|]; auto. apply N1. apply in_app_iff. auto. }
    eexists. exists parts. eexists. split; [reflexivity|]. split; [|split; [exact HZ|reflexivity]]. apply mkSplit with (parts := parts); cbn; auto.
    + eapply perm_trans; [apply remove_perm; [exact P|exact N]|]. clear - Na. destruct Na as [Na _]. unfold addrs in Na.
      induction (flat_map snd parts) as [|[x b] l IH]; cbn in *; [reflexivity|]. destruct (Z.eq_dec a x) as [->|]; [exfalso; auto|]. constructor. apply IH. tauto.
    + apply NoDup_remove_key. exact N.
    + rewrite O. apply remove_addr. apply Na.
Qed.

(** ** Every orderly client *)

(** The client starts with the blocks [H0], all its own, and no handle. *)
Definition fresh_world (H0 : heap) : world := mkWorld H0 (addrs H0) [].

(** What the client itself did to its blocks. *)
Fixpoint own_after (ops : list op) (w : world) (own : heap) : heap :=
  match ops with
  | [] => own
  | o :: ops =>
      let own' := match o with
                  | Take al => match al [] (w_heap w) true with VPtr a => (a, []) :: own | _ => own end
                  | Give a => remove_key Z.eq_dec a own
                  | _ => own
                  end in
      match step w o with Ok w' => own_after ops w' own' | _ => own' end
  end.

Lemma run_split (nn : Prop) ops : forall w parts own acc, split_world w parts own -> orderly ops w -> (nn -> Forall generous ops) -> sized nn parts acc ->
  exists w' parts', run ops w = Ok w' /\ split_world w' parts' (own_after ops w own) /\ sized nn parts' (fold_left account ops acc).
Proof.
  induction ops as [|o ops IH]; intros w parts own acc HS HO HG HZ; cbn [run own_after fold_left].
  - eauto.
  - destruct HO as [A HO].
    destruct (step_split nn w parts own o acc HS A ltac:(intros X; specialize (HG X); inversion HG; assumption) HZ) as [w1 [p1 [o1 [E [HS1 [HZ1 Eo]]]]]].
    rewrite E. cbn [bind]. rewrite <- Eo. apply (IH w1 p1 o1); auto. intros X. specialize (HG X). inversion HG; assumption.
Qed.

Lemma fresh_split nn H0 : NoDup (addrs H0) -> split_world (fresh_world H0) [] H0 /\ sized nn [] [].
Proof. intros N. split; [|constructor]. split; cbn; auto; constructor. Qed.

(** No call of an orderly client goes wrong, in whatever order the handles come and go: no block is released twice, no
    dead block is touched.  Afterwards the heap consists of the client's own blocks, with what was in them, and of at
    most [blocks] blocks for every handle still alive. *)
Theorem C76_orderly ops H0 : NoDup (addrs H0) -> orderly ops (fresh_world H0) ->
  exists w' held, run ops (fresh_world H0) = Ok w' /\
    Permutation (w_heap w') (held ++ own_after ops (fresh_world H0) H0) /\ NoDup (addrs (w_heap w')) /\
    w_own w' = addrs (own_after ops (fresh_world H0) H0) /\
    (length held <= total (fold_left account ops []))%nat /\
    (Forall generous ops -> length held = total (fold_left account ops [])).
Proof.
  intros N O. destruct (fresh_split (Forall generous ops) H0 N) as [HS HZ].
  destruct (run_split (Forall generous ops) ops _ _ _ _ HS O ltac:(auto) HZ) as [w' [parts [E [HS' HZ']]]].
  exists w', (flat_map snd parts). split; [exact E|]. destruct HS' as [P N' L S Ow B]. split; [exact P|]. split; [exact N'|]. split; [exact Ow|].
  exact (sized_total _ _ _ HZ').
Qed.

(** The handles that are alive are those made and not dropped. *)
Theorem C76_live ops H0 w' : NoDup (addrs H0) -> orderly ops (fresh_world H0) -> run ops (fresh_world H0) = Ok w' ->
  map fst (w_live w') = map fst (fold_left account ops []).
Proof.
  intros N O E. destruct (fresh_split False H0 N) as [HS HZ].
  destruct (run_split False ops _ _ _ _ HS O ltac:(tauto) HZ) as [w1 [parts [E1 [HS' HZ']]]].
  rewrite E1 in E. injection E as <-. rewrite (sp_live _ _ _ HS'). symmetry. eapply sized_slots; eauto.
Qed.

(** Once every handle has been cleaned up, only the client's own blocks remain. *)
Theorem C76_nothing_left ops H0 w' : NoDup (addrs H0) -> orderly ops (fresh_world H0) -> run ops (fresh_world H0) = Ok w' -> w_live w' = [] ->
  Permutation (w_heap w') (own_after ops (fresh_world H0) H0).
Proof.
  intros N O E L. destruct (fresh_split False H0 N) as [HS HZ].
  destruct (run_split False ops _ _ _ _ HS O ltac:(tauto) HZ) as [w1 [parts [E1 [HS' HZ']]]].
  rewrite E1 in E. injection E as <-. rewrite (sp_live _ _ _ HS') in L. apply map_eq_nil in L. subst parts. exact (sp_perm _ _ _ HS').
Qed.

(** If the client itself neither allocates nor frees, that is the heap it started with. *)
Definition library_only (o : op) : Prop := match o with Make _ _ _ _ _ _ _ | Drop _ => True | _ => False end.

Theorem C76_balanced ops H0 w' : NoDup (addrs H0) -> orderly ops (fresh_world H0) -> Forall library_only ops ->
  run ops (fresh_world H0) = Ok w' -> w_live w' = [] -> Permutation (w_heap w') H0.
Proof.
  intros N O F E L. pose proof (C76_nothing_left ops H0 w' N O E L) as P.
  assert (X : forall ops w own, Forall library_only ops -> own_after ops w own = own).
  { clear. induction ops as [|o ops IH]; intros w own F; cbn; [reflexivity|]. inversion F as [|? ? F1 F2]; subst.
    destruct o; try contradiction; destruct (step w _); auto. }
  rewrite X in P by exact F. exact P.
Qed.

(** ** Disorderly clients *)

(** Cleaning up NULL. *)
Theorem C76_null kd al H log : exec al (cleanup_of kd) (mkMem H [(v_myQP, VNull)] log) = Ub NullPtr.
Proof. destruct kd; reflexivity. Qed.

(** Cleaning up a pointer that is not a live block. *)
Theorem C76_stale kd al H log a : ~ In a (addrs H) -> exec al (cleanup_of kd) (mkMem H [(v_myQP, VPtr a)] log) = Ub Undef.
Proof.
  intros N. assert (E : assoc Z.eq_dec a H = None) by (apply assoc_none; exact N).
  assert (EL : load (mkMem H [(v_myQP, VPtr a)] log) (QP [f_x]) = Ub Undef).
  { unfold load, QP. cbn [fst snd m_env m_heap]. change (assoc var_eq_dec v_myQP [(v_myQP, VPtr a)]) with (Some (VPtr a)). cbv iota.
    cbn [follow deref_block]. rewrite E. reflexivity. }
  destruct kd; cbn [cleanup_of]; unfold h_QP_CLEANUP, h_QP_CLEANUP_dense, h_free_vectors, seq; cbn [map fold_right exec]; rewrite EL; reflexivity.
Qed.

(** In particular cleaning up a handle a second time. *)
Theorem C76_twice ops H0 w i kd q w' : NoDup (addrs H0) -> orderly ops (fresh_world H0) -> run ops (fresh_world H0) = Ok w ->
  In (i, (kd, q)) (w_live w) -> step w (Drop i) = Ok w' ->
  forall kd' al log, exec al (cleanup_of kd') (mkMem (w_heap w') [(v_myQP, q)] log) = Ub Undef.
Proof.
  intros N O E Hin St kd' al log. destruct (fresh_split False H0 N) as [HS HZ].
  destruct (run_split False ops _ _ _ _ HS O ltac:(tauto) HZ) as [w1 [parts [E1 [HS' HZ']]]].
  rewrite E1 in E. injection E as <-. destruct HS' as [P N' L S Ow B].
  pose proof (assoc_in Nat.eq_dec i (kd, q) (w_live w1) S Hin) as Ei. cbn [step] in St. rewrite Ei in St. rewrite L in Ei, S.
  destruct (remove_part _ _ _ _ S Ei) as [r [l1 [l2 [-> _]]]].
  assert (Br : block_of kd q r) by (apply Forall_app in B; destruct B as [_ B]; inversion B; assumption).
  destruct Br as [[a [-> Ha]] Br].
  set (rest := flat_map snd (l1 ++ l2) ++ own_after ops (fresh_world H0) H0) in *.
  assert (PP : Permutation (w_heap w1) (r ++ rest)).
  { eapply perm_trans; [exact P|]. unfold rest. rewrite !flat_map_app. cbn. rewrite <- !app_assoc. rewrite Permutation_app_swap_app. reflexivity. }
  assert (NN : NoDup (addrs (r ++ rest))) by (eapply Permutation_NoDup; [apply Permutation_map; exact PP|exact N']).
  destruct (Br _ NN) as [s1 [X1 H1]].
  destruct (exec_perm _ _ (cleanup_frees kd) (mkMem (r ++ rest) [(v_myQP, VPtr a)] []) (mkMem (w_heap w1) [(v_myQP, VPtr a)] []) s1
      (Permutation_sym PP) NN eq_refl X1) as [s2 [X2 [P2 [N2 _]]]].
  rewrite X2 in St. cbn [bind] in St. injection St as <-. cbn [w_heap]. apply C76_stale. intros X.
  apply (Permutation_in a (Permutation_sym (Permutation_map fst P2))) in X. rewrite H1 in X.
  clear - NN Ha X. unfold addrs in *. rewrite map_app in NN. induction (map fst r) as [|y l IH]; [destruct Ha|]. cbn in NN. inversion NN as [|? ? N1 N3]; subst.
  destruct Ha as [->|Ha]; [apply N1; apply in_app_iff; auto|auto].
Qed.

(** ** A case *)

(** Whether a client that calls malloc only through the library is orderly can be read off its calls. *)
Fixpoint tidy (ops : list op) (slots : list nat) (own : list Z) : Prop :=
  match ops with
  | [] => True
  | Make i _ _ _ k _ al :: ops => (~ In i slots /\ amd_choice_ok k /\ allocator_ok al) /\ tidy ops (i :: slots) own
  | Drop i :: ops => In i slots /\ tidy ops (map fst (remove_key Nat.eq_dec i (map (fun i => (i, tt)) slots))) own
  | Give a :: ops => In a own /\ tidy ops slots (remove Z.eq_dec a own)
  | Take _ :: _ => False
  end.

Lemma slots_remove {V} i (l : list (nat * V)) :
  map fst (remove_key Nat.eq_dec i l) = map fst (remove_key Nat.eq_dec i (map (fun i => (i, tt)) (map fst l))).
Proof. induction l as [|[j v] l IH]; cbn; [reflexivity|]. destruct (Nat.eq_dec i j); cbn; [rewrite map_map; cbn; rewrite map_id; reflexivity|]. rewrite IH. reflexivity. Qed.

Lemma tidy_orderly ops : forall w, tidy ops (map fst (w_live w)) (w_own w) -> orderly ops w.
Proof.
  induction ops as [|o ops IH]; intros w H; cbn; [exact I|]. destruct o as [i kd eqs perm k u al|i|al|a]; cbn [tidy] in H; [| |contradiction|].
  - destruct H as [A H]. split; [exact A|]. intros w'. cbn [step].
    destruct (exec al _ _) as [s| |]; cbn [bind]; try discriminate. destruct (load s _) as [q| |]; cbn [bind]; try discriminate.
    intros E. injection E as <-. apply IH. exact H.
  - destruct H as [A H]. split; [exact A|]. intros w'. cbn [step]. destruct (assoc Nat.eq_dec i (w_live w)) as [[kd q]|]; [|discriminate].
    destruct (exec _ _ _) as [s| |]; cbn [bind]; try discriminate. intros E. injection E as <-. apply IH. cbn [w_live w_own]. rewrite slots_remove. exact H.
  - destruct H as [A H]. split; [exact A|]. intros w'. cbn [step]. destruct (assoc Z.eq_dec a (w_heap w)); [|discriminate].
    intros E. injection E as <-. apply IH. exact H.
Qed.

(** Two handles on the same data, sparse and dense; the first cleaned up while the second is alive; a third in its slot,
    where every array allocation fails; the caller's matrices freed before the last cleanup. *)
Definition three_handles : list op :=
  [Make 0 sparse true false no_fail callers_args bump; Make 1 dense false true no_fail callers_args bump; Drop 0;
   Make 0 sparse true true no_fail callers_args starving; Give 3; Give 9; Drop 1; Drop 0].

Example three_tidy : orderly three_handles (fresh_world callers_heap).
Proof.
  apply tidy_orderly. cbn -[allocator_ok amd_choice_ok].
  repeat split; auto using bump_ok, starving_ok; cbn; intuition discriminate.
Qed.

Example C76_case : exists w', run three_handles (fresh_world callers_heap) = Ok w' /\ w_live w' = [] /\
  Permutation (addrs (w_heap w')) [1; 2; 4; 5; 6; 7; 8; 10; 11; 12; 13].
Proof.
  destruct (C76_orderly three_handles callers_heap callers_heap_ok three_tidy) as [w' [held [E [P [_ [Ho [Hl _]]]]]]].
  exists w'. split; [exact E|]. pose proof (C76_live _ _ _ callers_heap_ok three_tidy E) as L. cbn in L. apply map_eq_nil in L. split; [exact L|].
  pose proof (Permutation_map fst (C76_nothing_left _ _ _ callers_heap_ok three_tidy E L)) as Q. unfold addrs. rewrite Q. 
  fold (addrs (own_after three_handles (fresh_world callers_heap) callers_heap)).
  rewrite <- Ho. clear - E. 
  assert (X : forall ops w w', (forall o, In o ops -> match o with Take _ => False | _ => True end) -> run ops w = Ok w' ->
    w_own w' = fold_left (fun l o => match o with Give a => remove Z.eq_dec a l | _ => l end) ops (w_own w)).
  { clear. induction ops as [|o ops IH]; intros w w' HT E; cbn in *; [injection E as <-; reflexivity|].
    destruct (step w o) as [w1| |] eqn:E1; cbn in E; try discriminate. rewrite (IH w1 w' (fun o' Ho' => HT o' (or_intror Ho')) E). f_equal.
    specialize (HT o (or_introl eq_refl)). destruct o as [i kd eqs perm k u al|i|al|a]; cbn in E1; [| |contradiction|].
    - destruct (exec al _ _) as [s| |]; cbn [bind] in E1; try discriminate. destruct (load s _) as [q| |]; cbn [bind] in E1; try discriminate. injection E1 as <-. reflexivity.
    - destruct (assoc Nat.eq_dec i (w_live w)) as [[kd q]|]; [|discriminate]. destruct (exec _ _ _) as [s| |]; cbn [bind] in E1; try discriminate. injection E1 as <-. reflexivity.
    - destruct (assoc Z.eq_dec a (w_heap w)); [|discriminate]. injection E1 as <-. reflexivity. }
  rewrite (X three_handles _ _) with (2 := E); [reflexivity|]. intros o Ho. cbn in Ho. repeat (destruct Ho as [<-|Ho]; [exact I|]). destruct Ho.
Qed.

Print Assumptions C76_orderly.
Print Assumptions C76_live.
Print Assumptions C76_nothing_left.
Print Assumptions C76_balanced.
Print Assumptions C76_null.
Print Assumptions C76_stale.
Print Assumptions C76_twice.
