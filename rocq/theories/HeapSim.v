(** Symbolic execution of the memory model: block identities instead of addresses, sound for every allocator and every
    initial heap. *)
From Coq Require Import ZArith List Bool Lia.
From Verif Require Import Res MHeap.
Import ListNotations.
Open Scope Z_scope.

(** ** Association lists *)

Section Assoc.
Context {K V : Type} (dec : forall a b : K, {a = b} + {a <> b}).
Definition keys (l : list (K * V)) : list K := map fst l.

Lemma assoc_in (k : K) (v : V) (l : list (K * V)) : NoDup (keys l) -> In (k, v) l -> assoc dec k l = Some v.
Proof.
  induction l as [|[k' v'] l IH]; cbn; [tauto|]. intros H [E|E].
  - injection E as -> ->. destruct (dec k k); congruence.
  - inversion H; subst. destruct (dec k k') as [->|]; auto. exfalso. apply H2. change k' with (fst (k', v)). apply in_map. exact E.
Qed.
Lemma in_assoc (k : K) (v : V) (l : list (K * V)) : assoc dec k l = Some v -> In (k, v) l.
Proof. induction l as [|[k' v'] l IH]; cbn; [discriminate|]. destruct (dec k k') as [->|]; intros E; [injection E as ->|]; auto. Qed.
Lemma assoc_key (k : K) (v : V) (l : list (K * V)) : assoc dec k l = Some v -> In k (keys l).
Proof. intros H. apply in_assoc in H. apply (in_map fst) in H. exact H. Qed.
Lemma assoc_none (k : K) (l : list (K * V)) : ~ In k (keys l) -> assoc dec k l = None.
Proof. induction l as [|[k' v'] l IH]; cbn; auto. intros H. destruct (dec k k') as [->|]; [exfalso|]; auto. Qed.
Lemma assoc_app (k : K) (l1 l2 : list (K * V)) : assoc dec k (l1 ++ l2) = match assoc dec k l1 with Some v => Some v | None => assoc dec k l2 end.
Proof. induction l1 as [|[k' v'] l1 IH]; cbn; auto. destruct (dec k k'); auto. Qed.
Lemma keys_replace (k : K) (v : V) (l : list (K * V)) : keys (replace dec k v l) = keys l.
Proof. unfold keys. induction l as [|[k' v'] l IH]; cbn; auto. destruct (dec k k'); cbn; congruence. Qed.
Lemma replace_none (k : K) (v : V) (l : list (K * V)) : ~ In k (keys l) -> replace dec k v l = l.
Proof. induction l as [|[k' v'] l IH]; cbn; auto. intros H. destruct (dec k k') as [->|]; [exfalso; auto|]. rewrite IH; auto. Qed.
Lemma remove_none (k : K) (l : list (K * V)) : ~ In k (keys l) -> remove_key dec k l = l.
Proof. induction l as [|[k' v'] l IH]; cbn; auto. intros H. destruct (dec k k') as [->|]; [exfalso; auto|]. rewrite IH; auto. Qed.
Lemma replace_app (k : K) (v : V) l1 l2 : In k (keys l1) -> replace dec k v (l1 ++ l2) = replace dec k v l1 ++ l2.
Proof. induction l1 as [|[k' v'] l1 IH]; cbn; [tauto|]. intros [E|H]; destruct (dec k k'); cbn; try congruence. rewrite IH; auto. Qed.
Lemma remove_app (k : K) (l1 l2 : list (K * V)) : In k (keys l1) -> remove_key dec k (l1 ++ l2) = remove_key dec k l1 ++ l2.
Proof. induction l1 as [|[k' v'] l1 IH]; cbn; [tauto|]. intros [E|H]; destruct (dec k k'); cbn; try congruence. rewrite IH; auto. Qed.
Lemma remove_incl (k : K) (l : list (K * V)) e : In e (remove_key dec k l) -> In e l.
Proof. induction l as [|[k' v'] l IH]; cbn; auto. destruct (dec k k'); cbn; intuition. Qed.
Lemma keys_remove_incl (k : K) (l : list (K * V)) x : In x (keys (remove_key dec k l)) -> In x (keys l).
Proof. unfold keys. rewrite !in_map_iff. intros [e [E H]]. exists e. split; auto. eapply remove_incl; eauto. Qed.
Lemma NoDup_remove_key (k : K) (l : list (K * V)) : NoDup (keys l) -> NoDup (keys (remove_key dec k l)).
Proof.
  induction l as [|[k' v'] l IH]; cbn; auto. intros H. inversion H; subst. destruct (dec k k'); auto. cbn. constructor; auto.
  intros E. apply H2. apply keys_remove_incl in E. exact E.
Qed.
Lemma remove_gone (k : K) (l : list (K * V)) : NoDup (keys l) -> ~ In k (keys (remove_key dec k l)).
Proof.
  induction l as [|[k' v'] l IH]; cbn; auto. intros H. inversion H; subst. destruct (dec k k') as [->|]; auto. cbn. intros [E|E]; [congruence|]. exact (IH H3 E).
Qed.
End Assoc.

(** ** Symbolic values *)

(** A block allocated by the library ([true]: it may be NULL), a caller's argument, NULL, an integer. *)
Inductive sval : Type := SNew (i : nat) (nb : bool) | SArg (v : var) | SNul | SNum (z : Z).
Definition sblock : Type := list (field * sval).
Record smem : Type := mkSmem { s_heap : list (nat * sblock); s_env : list (var * sval); s_next : nat }.

Fixpoint sfollow (h : list (nat * sblock)) (v : sval) (l : list field) : option sval :=
  match l with
  | [] => Some v
  | f :: l =>
      match v with
      | SNew i false =>
          match assoc Nat.eq_dec i h with
          | Some b => match assoc field_eq_dec f b with Some w => sfollow h w l | None => None end
          | None => None
          end
      | _ => None
      end
  end.

Definition sload (s : smem) (p : path) : option sval :=
  match assoc var_eq_dec (fst p) (s_env s) with
  | Some v => sfollow (s_heap s) v (snd p)
  | None => None
  end.

Definition sstore (s : smem) (p : path) (v : sval) : option smem :=
  match rev (snd p) with
  | [] => Some (mkSmem (s_heap s) ((fst p, v) :: s_env s) (s_next s))
  | f :: l =>
      match sload s (fst p, rev l) with
      | Some (SNew i false) =>
          match assoc Nat.eq_dec i (s_heap s) with
          | Some b => Some (mkSmem (replace Nat.eq_dec i ((f, v) :: b) (s_heap s)) (s_env s) (s_next s))
          | None => None
          end
      | _ => None
      end
  end.

Fixpoint sexec (c : prog) (s : smem) : option smem :=
  match c with
  | Skip => Some s
  | Alloc p nb => sstore (mkSmem ((s_next s, []) :: s_heap s) (s_env s) (S (s_next s))) p (SNew (s_next s) nb)
  | Free p =>
      match sload s p with
      | Some (SNew i _) =>
          match assoc Nat.eq_dec i (s_heap s) with
          | Some _ => Some (mkSmem (remove_key Nat.eq_dec i (s_heap s)) (s_env s) (s_next s))
          | None => None
          end
      | Some SNul => Some s
      | _ => None
      end
  | Assign p e =>
      match (match e with SNull => Some SNul | SInt z => Some (SNum z) | SPath q => sload s q end) with
      | Some v => sstore s p v
      | None => None
      end
  | Seq a b => match sexec a s with Some s' => sexec b s' | None => None end
  | IfPtr p a =>
      match sload s p with
      | Some (SNew _ false) => sexec a s
      | Some SNul => Some s
      | _ => None
      end
  | IfNe p z a =>
      match sload s p with
      | Some (SNum k) => if k =? z then Some s else sexec a s
      | _ => None
      end
  end.

(** ** From symbolic to actual memory *)

Section Sim.
Variable u : var -> value.      (* the arguments *)
Variable H0 : heap.             (* the heap before the call *)
Variable never_null : Prop.     (* whether allocations can return NULL *)

Definition cv (f : nat -> value) (v : sval) : value :=
  match v with SNew i _ => f i | SArg x => u x | SNul => VNull | SNum z => VInt z end.
Definition cb (f : nat -> value) (b : sblock) : block := map (fun e => (fst e, cv f (snd e))) b.
Definition ce (f : nat -> value) (b : list (var * sval)) : list (var * value) := map (fun e => (fst e, cv f (snd e))) b.
Definition ch1 (f : nat -> value) (e : nat * sblock) : heap := match f (fst e) with VPtr a => [(a, cb f (snd e))] | _ => [] end.
Definition ch (f : nat -> value) (h : list (nat * sblock)) : heap := flat_map (ch1 f) h.

Definition okv (n : nat) (f : nat -> value) (v : sval) : Prop :=
  match v with
  | SNew i nb => (i < n)%nat /\ match f i with VPtr _ => True | VNull => nb = true | VInt _ => False end
  | _ => True
  end.

Record R (f : nat -> value) (c : smem) (s : mem) : Prop := mkR {
  r_heap : m_heap s = ch f (s_heap c) ++ H0;
  r_env : m_env s = ce f (s_env c);
  r_nodup : NoDup (addrs (m_heap s));
  r_ids : NoDup (keys (s_heap c));
  r_lt : forall i b, In (i, b) (s_heap c) -> (i < s_next c)%nat;
  r_vals : forall i b x v, In (i, b) (s_heap c) -> In (x, v) b -> okv (s_next c) f v;
  r_evals : forall x v, In (x, v) (s_env c) -> okv (s_next c) f v;
  r_log : forall a, In (EFree a) (m_log s) -> ~ In a (addrs H0);
  r_nn : never_null -> forall i, (i < s_next c)%nat -> exists a, f i = VPtr a
}.

Lemma ch_in f h i b a : In (i, b) h -> f i = VPtr a -> In (a, cb f b) (ch f h).
Proof. intros H E. unfold ch. apply in_flat_map. exists (i, b). split; auto. unfold ch1. cbn. rewrite E. left. reflexivity. Qed.

Lemma ch_key f h a : In a (addrs (ch f h)) -> exists i, In i (keys h) /\ f i = VPtr a.
Proof.
  unfold addrs. rewrite in_map_iff. intros [[a' b'] [E H]]. cbn in E. subst. unfold ch in H. apply in_flat_map in H.
  destruct H as [[i b] [Hi H]]. unfold ch1 in H. cbn in H. destruct (f i) eqn:E; cbn in H; try tauto. destruct H as [H|[]]. injection H as -> _.
  exists i. split; auto. apply (in_map fst) in Hi. exact Hi.
Qed.

Lemma assoc_map {K} (dec : forall a b : K, {a = b} + {a <> b}) f k (l : list (K * sval)) :
  assoc dec k (map (fun e => (fst e, cv f (snd e))) l) = match assoc dec k l with Some v => Some (cv f v) | None => None end.
Proof. induction l as [|[k' v'] l IH]; cbn; auto. destruct (dec k k'); auto. Qed.

Lemma R_block f c s i b a : R f c s -> assoc Nat.eq_dec i (s_heap c) = Some b -> f i = VPtr a ->
  assoc Z.eq_dec a (m_heap s) = Some (cb f b).
Proof.
  intros H E Ea. apply in_assoc in E. apply assoc_in; [exact (r_nodup _ _ _ H)|]. rewrite (r_heap _ _ _ H).
  apply in_app_iff. left. eapply ch_in; eauto.
Qed.

Lemma sfollow_ok f c s : R f c s -> forall l v w, okv (s_next c) f v -> sfollow (s_heap c) v l = Some w ->
  follow (m_heap s) (cv f v) l = Ok (cv f w) /\ okv (s_next c) f w.
Proof.
  intros H. induction l as [|x l IH]; intros v w Hv E; cbn in E.
  - injection E as <-. auto.
  - destruct v as [i [|]| | |]; try discriminate. destruct (assoc Nat.eq_dec i (s_heap c)) as [b|] eqn:Eb; try discriminate.
    destruct (assoc field_eq_dec x b) as [v'|] eqn:Ev; try discriminate.
    cbn [cv okv] in *. destruct Hv as [Hlt Hi]. destruct (f i) as [a| |] eqn:Ef; try tauto; try discriminate.
    cbn [follow deref_block]. rewrite (R_block _ _ _ _ _ _ H Eb Ef). cbn [bind]. unfold cb. rewrite assoc_map, Ev.
    apply IH; auto. apply in_assoc in Eb, Ev. eapply (r_vals _ _ _ H); eauto.
Qed.

Lemma sload_ok f c s p w : R f c s -> sload c p = Some w -> load s p = Ok (cv f w) /\ okv (s_next c) f w.
Proof.
  intros H. unfold sload, load. rewrite (r_env _ _ _ H). unfold ce. rewrite assoc_map.
  destruct (assoc var_eq_dec (fst p) (s_env c)) as [v|] eqn:E; try discriminate. intros E'.
  eapply sfollow_ok; eauto. apply in_assoc in E. eapply (r_evals _ _ _ H); eauto.
Qed.

Lemma ch_replace f h i b b' a : NoDup (addrs (ch f h)) -> In (i, b) h -> NoDup (keys h) -> f i = VPtr a ->
  replace Z.eq_dec a (cb f b') (ch f h) = ch f (replace Nat.eq_dec i b' h).
Proof.
  induction h as [|[i' b1] h IH]; cbn [In]; [tauto|]. intros Hn Hin Hk Ea.
  change (ch f ((i', b1) :: h)) with (ch1 f (i', b1) ++ ch f h) in *. unfold keys in Hk. cbn [map] in Hk. inversion Hk; subst.
  cbn [replace]. destruct (Nat.eq_dec i i') as [<-|Ni].
  - change (ch f ((i, b') :: h)) with (ch1 f (i, b') ++ ch f h). unfold ch1. cbn [fst snd]. rewrite Ea. cbn [app replace].
    destruct (Z.eq_dec a a); congruence.
  - destruct Hin as [E|Hin]; [congruence|].
    change (ch f ((i', b1) :: replace Nat.eq_dec i b' h)) with (ch1 f (i', b1) ++ ch f (replace Nat.eq_dec i b' h)).
    unfold ch1 in *. cbn [fst snd] in *. destruct (f i') as [a'| |] eqn:E'; cbn [app] in *.
    + cbn [replace]. unfold addrs in Hn. cbn [map fst] in Hn. inversion Hn as [|? ? Hn1 Hn2]; subst.
      destruct (Z.eq_dec a a') as [<-|]; [|rewrite IH; auto].
      exfalso. apply Hn1. apply (in_map fst) with (x := (a, cb f b)). eapply ch_in; eauto.
    + apply IH; auto.
    + apply IH; auto.
Qed.

Lemma ch_remove f h i b a : NoDup (addrs (ch f h)) -> In (i, b) h -> NoDup (keys h) -> f i = VPtr a ->
  remove_key Z.eq_dec a (ch f h) = ch f (remove_key Nat.eq_dec i h).
Proof.
  induction h as [|[i' b1] h IH]; cbn [In]; [tauto|]. intros Hn Hin Hk Ea.
  change (ch f ((i', b1) :: h)) with (ch1 f (i', b1) ++ ch f h) in *. unfold keys in Hk. cbn [map] in Hk. inversion Hk; subst.
  cbn [remove_key]. destruct (Nat.eq_dec i i') as [<-|Ni].
  - unfold ch1. cbn [fst snd]. rewrite Ea. cbn [app remove_key]. destruct (Z.eq_dec a a); congruence.
  - destruct Hin as [E|Hin]; [congruence|].
    change (ch f ((i', b1) :: remove_key Nat.eq_dec i h)) with (ch1 f (i', b1) ++ ch f (remove_key Nat.eq_dec i h)).
    unfold ch1 in *. cbn [fst snd] in *. destruct (f i') as [a'| |] eqn:E'; cbn [app] in *.
    + cbn [remove_key]. unfold addrs in Hn. cbn [map fst] in Hn. inversion Hn as [|? ? Hn1 Hn2]; subst.
      destruct (Z.eq_dec a a') as [<-|]; [|rewrite IH; auto].
      exfalso. apply Hn1. apply (in_map fst) with (x := (a, cb f b)). eapply ch_in; eauto.
    + apply IH; auto.
    + apply IH; auto.
Qed.

Lemma ch_remove_null f h i b : In (i, b) h -> NoDup (keys h) -> (forall a, f i <> VPtr a) ->
  ch f (remove_key Nat.eq_dec i h) = ch f h.
Proof.
  induction h as [|[i' b1] h IH]; cbn [In]; [tauto|]. intros Hin Hk Ea. unfold keys in Hk. cbn [map] in Hk. inversion Hk; subst.
  cbn [remove_key]. destruct (Nat.eq_dec i i') as [<-|Ni].
  - change (ch f ((i, b1) :: h)) with (ch1 f (i, b1) ++ ch f h). unfold ch1. cbn. destruct (f i) eqn:E; auto. exfalso. eapply Ea. reflexivity.
  - destruct Hin as [E|Hin]; [congruence|].
    change (ch1 f (i', b1) ++ ch f (remove_key Nat.eq_dec i h) = ch1 f (i', b1) ++ ch f h). rewrite IH; auto.
Qed.

Lemma NoDup_app_l {T} (l1 l2 : list T) : NoDup (l1 ++ l2) -> NoDup l1.
Proof.
  induction l1 as [|x l1 IH]; cbn; intros H; [constructor|]. inversion H as [|? ? H1 H2]; subst. constructor; auto.
  intros E. apply H1. apply in_app_iff. auto.
Qed.

Lemma R_nodup_ch f c s : R f c s -> NoDup (addrs (ch f (s_heap c))).
Proof. intros H. pose proof (r_nodup _ _ _ H) as N. rewrite (r_heap _ _ _ H) in N. unfold addrs in N. rewrite map_app in N. apply NoDup_app_l in N. exact N. Qed.

Lemma in_replace {K V} (dec : forall a b : K, {a = b} + {a <> b}) (k : K) (v : V) l e : In e (replace dec k v l) -> e = (k, v) \/ In e l.
Proof.
  induction l as [|[k' v'] l IH]; cbn; auto. destruct (dec k k') as [->|]; cbn; intros [E|E]; auto.
  destruct (IH E); auto.
Qed.

Lemma sstore_ok f c s p v c' : R f c s -> okv (s_next c) f v -> sstore c p v = Some c' ->
  exists s', store s p (cv f v) = Ok s' /\ R f c' s' /\ m_log s' = m_log s /\ s_next c' = s_next c.
Proof.
  intros H Hv. unfold sstore, store. destruct (rev (snd p)) as [|x l].
  - intros E. injection E as <-. eexists. split; [reflexivity|]. split; [|auto]. destruct H as [H1 H2 H3 H4 H5 H6 H7 H8 H9]. split; cbn; auto.
    + rewrite H2. reflexivity.
    + intros y w [E|E]; [injection E as _ <-; auto|eauto].
  - destruct (sload c (fst p, rev l)) as [w|] eqn:El; try discriminate. destruct w as [i [|]| | |]; try discriminate.
    destruct (assoc Nat.eq_dec i (s_heap c)) as [b|] eqn:Eb; try discriminate. intros E. injection E as <-.
    destruct (sload_ok _ _ _ _ _ H El) as [EL Hw]. rewrite EL. cbn [bind cv]. cbn [okv] in Hw. destruct Hw as [Hlt Hw].
    destruct (f i) as [a| |] eqn:Ef; try tauto; try discriminate. cbn [deref_block].
    rewrite (R_block _ _ _ _ _ _ H Eb Ef). cbn [bind]. eexists. split; [reflexivity|]. split; [|auto].
    pose proof (R_nodup_ch _ _ _ H) as HN. pose proof (in_assoc _ _ _ _ Eb) as Hin.
    destruct H as [H1 H2 H3 H4 H5 H6 H7 H8 H9].
    change ((x, cv f v) :: cb f b) with (cb f ((x, v) :: b)).
    assert (Ka : In a (addrs (ch f (s_heap c)))) by (apply (in_map fst) with (x := (a, cb f b)); eapply ch_in; eauto).
    split; cbn [m_heap m_env m_log s_heap s_env s_next]; auto.
    + rewrite H1, replace_app by exact Ka. rewrite (ch_replace f _ i b); auto.
    + unfold addrs. change (map fst) with (@keys Z block). rewrite keys_replace. exact H3.
    + rewrite keys_replace. exact H4.
    + intros j b1 Hj. apply in_replace in Hj. destruct Hj as [E|Hj]; [injection E as -> ->; eauto|eauto].
    + intros j b1 y w Hj Hy. apply in_replace in Hj. destruct Hj as [E|Hj]; [|eauto].
      injection E as -> ->. cbn in Hy. destruct Hy as [E|Hy]; [injection E as -> ->; auto|eauto].
Qed.

Lemma cv_ext f g n v : (forall j, (j < n)%nat -> g j = f j) -> okv n f v -> cv g v = cv f v.
Proof. intros E H. destruct v; cbn in *; auto. apply E. apply H. Qed.
Lemma okv_ext f g n n' v : (n <= n')%nat -> (forall j, (j < n)%nat -> g j = f j) -> okv n f v -> okv n' g v.
Proof. intros L E H. destruct v; cbn in *; auto. destruct H as [H1 H2]. rewrite E by exact H1. split; auto. lia. Qed.

Lemma map_cv_ext {K} f g n (b : list (K * sval)) : (forall j, (j < n)%nat -> g j = f j) -> (forall x v, In (x, v) b -> okv n f v) ->
  map (fun e => (fst e, cv g (snd e))) b = map (fun e => (fst e, cv f (snd e))) b.
Proof. intros E H. apply map_ext_in. intros [x v] Hx. cbn. f_equal. eapply cv_ext; eauto. Qed.

Lemma ch_ext f g n h : (forall j, (j < n)%nat -> g j = f j) -> (forall i b, In (i, b) h -> (i < n)%nat) ->
  (forall i b x v, In (i, b) h -> In (x, v) b -> okv n f v) -> ch g h = ch f h.
Proof.
  intros E H1 H2. unfold ch. induction h as [|[i b] h IH]; cbn; auto. f_equal.
  - unfold ch1. cbn. rewrite E by (eapply H1; left; reflexivity). destruct (f i); auto. do 2 f_equal. eapply map_cv_ext; eauto.
    intros x v Hx. eapply H2; eauto. left. reflexivity.
  - apply IH; [intros; eapply H1; right; eauto|intros; eapply H2; [right; eauto|eauto]].
Qed.

Definition upd (f : nat -> value) (n : nat) (v : value) (j : nat) : value := if Nat.eq_dec j n then v else f j.
Lemma upd_lt f n v j : (j < n)%nat -> upd f n v j = f j.
Proof. unfold upd. destruct (Nat.eq_dec j n); auto. lia. Qed.
Lemma upd_eq f n v : upd f n v n = v.
Proof. unfold upd. destruct (Nat.eq_dec n n); congruence. Qed.

Lemma R_new f c s v nb : (never_null -> exists a, v = VPtr a) -> R f c s -> match v with VPtr a => ~ In a (addrs (m_heap s)) | VNull => nb = true | VInt _ => False end ->
  let c1 := mkSmem ((s_next c, []) :: s_heap c) (s_env c) (S (s_next c)) in
  let s1 := match v with VPtr a => mkMem ((a, []) :: m_heap s) (m_env s) (EMalloc a :: m_log s) | _ => s end in
  R (upd f (s_next c) v) c1 s1 /\ okv (s_next c1) (upd f (s_next c) v) (SNew (s_next c) nb).
Proof.
  intros Hnn [H1 H2 H3 H4 H5 H6 H7 H8 H9] Hv c1 s1.
  set (g := upd f (s_next c) v).
  assert (EG : forall j, (j < s_next c)%nat -> g j = f j) by (intros; apply upd_lt; auto).
  assert (EH : ch g (s_heap c) = ch f (s_heap c)) by (eapply ch_ext; eauto).
  assert (EE : ce g (s_env c) = ce f (s_env c)) by (eapply map_cv_ext; eauto).
  split.
  - split; cbn [c1 s_heap s_env s_next].
    + change (ch g ((s_next c, []) :: s_heap c)) with (ch1 g (s_next c, []) ++ ch g (s_heap c)). rewrite EH. unfold ch1. cbn [fst snd].
      unfold g at 1. rewrite upd_eq. unfold s1. destruct v; cbn; auto. rewrite H1. reflexivity.
    + unfold s1. destruct v; cbn; rewrite EE; auto.
    + unfold s1. destruct v; cbn; auto. constructor; auto.
    + cbn. constructor; auto. intros E. apply in_map_iff in E. destruct E as [[j b] [E' Hj]]. cbn in E'. subst. apply H5 in Hj. lia.
    + intros i b [E|E]; [injection E as <- _; lia|]. apply H5 in E. lia.
    + intros i b x w [E|E] Hx; [injection E as _ <-; destruct Hx|]. eapply (okv_ext f g (s_next c)); eauto.
    + intros x w Hx. eapply (okv_ext f g (s_next c)); eauto.
    + unfold s1. destruct v; cbn; auto. intros a' [E|E]; [discriminate|auto].
    + intros N i Hi. destruct (Nat.eq_dec i (s_next c)) as [->|Hne]; [unfold g; rewrite upd_eq; auto|]. rewrite EG by lia. apply H9; auto. lia.
  - cbn. split; [lia|]. unfold g. rewrite upd_eq. destruct v; auto.
Qed.

Theorem sexec_ok al : allocator_ok al -> (never_null -> forall log h b, al log h b <> VNull) -> forall p c c' f s, R f c s -> sexec p c = Some c' ->
  exists f' s', exec al p s = Ok s' /\ R f' c' s'.
Proof.
  intros Hal Hnn. induction p as [|p nb|p|p e|a IHa b IHb|p a IHa|p z a IHa]; intros c c' f s H E; cbn [sexec exec] in *.
  - injection E as <-. eauto.
  - pose proof (Hal (m_log s) (m_heap s) nb) as Hv. 
    assert (Hn : never_null -> exists a, al (m_log s) (m_heap s) nb = VPtr a).
    { intros N. specialize (Hnn N (m_log s) (m_heap s) nb). destruct (al (m_log s) (m_heap s) nb); [eauto|congruence|contradiction]. }
    destruct (R_new f c s _ nb Hn H Hv) as [H1 H2].
    destruct (sstore_ok _ _ _ _ _ _ H1 H2 E) as [s' [E1 [H3 _]]]. cbn [cv] in E1. rewrite upd_eq in E1.
    exists (upd f (s_next c) (al (m_log s) (m_heap s) nb)), s'. split; auto. destruct (al (m_log s) (m_heap s) nb); auto.
  - destruct (sload c p) as [v|] eqn:El; try discriminate. destruct (sload_ok _ _ _ _ _ H El) as [EL Hv]. rewrite EL. cbn [bind].
    destruct v as [i nb| | |]; try discriminate.
    + destruct (assoc Nat.eq_dec i (s_heap c)) as [b|] eqn:Eb; try discriminate. injection E as <-. cbn [cv okv] in *.
      pose proof (R_nodup_ch _ _ _ H) as HN. pose proof (in_assoc _ _ _ _ Eb) as Hin.
      destruct Hv as [Hlt Hv]. destruct (f i) as [a| |] eqn:Ef; try tauto.
      * rewrite (R_block _ _ _ _ _ _ H Eb Ef). exists f. eexists. split; [reflexivity|].
        assert (Ka : In a (addrs (ch f (s_heap c)))) by (apply (in_map fst) with (x := (a, cb f b)); eapply ch_in; eauto).
        destruct H as [H1 H2 H3 H4 H5 H6 H7 H8 H9].
        split; cbn [m_heap m_env m_log s_heap s_env s_next]; auto.
        -- rewrite H1, remove_app by exact Ka. rewrite (ch_remove f _ i b); auto.
        -- apply NoDup_remove_key. exact H3.
        -- apply NoDup_remove_key. exact H4.
        -- intros j b1 Hj. apply remove_incl in Hj. eauto.
        -- intros j b1 y w Hj. apply remove_incl in Hj. eauto.
        -- intros a' [E'|E']; [injection E' as <-|auto]. intros Ha. rewrite H1 in H3. unfold addrs in H3. rewrite map_app in H3.
           clear - H3 Ka Ha. unfold addrs in *. induction (map fst (ch f (s_heap c))) as [|y l IH]; [destruct Ka|]. cbn in H3. inversion H3 as [|? ? N1 N2]; subst.
           destruct Ka as [->|Ka]; [apply N1; apply in_app_iff; auto|auto].
      * exists f, s. split; auto. destruct H as [H1 H2 H3 H4 H5 H6 H7 H8 H9].
        split; cbn [s_heap s_env s_next]; auto.
        -- rewrite (ch_remove_null f _ i b); auto. intros a. congruence.
        -- apply NoDup_remove_key. exact H4.
        -- intros j b1 Hj. apply remove_incl in Hj. eauto.
        -- intros j b1 y w Hj. apply remove_incl in Hj. eauto.
    + injection E as <-. cbn [cv]. eauto.
  - destruct (match e with SNull => Some SNul | SInt z => Some (SNum z) | SPath q => sload c q end) as [v|] eqn:Ev; try discriminate.
    assert (HE : match e with SNull => Ok VNull | SInt z => Ok (VInt z) | SPath q => load s q end = Ok (cv f v) /\ okv (s_next c) f v).
    { destruct e as [|z|q]; try (injection Ev as <-; cbn; auto). apply sload_ok with (1 := H) (2 := Ev). }
    destruct HE as [-> Hv]. cbn [bind]. destruct (sstore_ok _ _ _ _ _ _ H Hv E) as [s' [E1 [H1 _]]]. eauto.
  - destruct (sexec a c) as [c1|] eqn:E1; try discriminate. destruct (IHa _ _ _ _ H E1) as [f1 [s1 [E2 H2]]]. rewrite E2. cbn [bind]. eauto.
  - destruct (sload c p) as [v|] eqn:El; try discriminate. destruct (sload_ok _ _ _ _ _ H El) as [EL Hv]. rewrite EL. cbn [bind].
    destruct v as [i [|]| | |]; try discriminate.
    + cbn [cv okv] in *. destruct Hv as [_ Hv]. destruct (f i); try tauto; try discriminate. eauto.
    + injection E as <-. cbn. eauto.
  - destruct (sload c p) as [v|] eqn:El; try discriminate. destruct (sload_ok _ _ _ _ _ H El) as [EL Hv]. rewrite EL. cbn [bind].
    destruct v as [i nb| | |k]; try discriminate. cbn [cv]. destruct (k =? z); [injection E as <-|]; eauto.
Qed.

(** Start: the arguments in their variables, nothing allocated by the library. *)
Definition args : list var :=
  [a_Pjc; a_Pir; a_Ppr; a_Ajc; a_Air; a_Apr; a_Gjc; a_Gir; a_Gpr; a_c; a_h; a_b; a_Permut].
Definition sstart : smem := mkSmem [] (map (fun v => (v, SArg v)) args) 0.
Definition start : mem := mkMem H0 (map (fun v => (v, u v)) args) [].

Lemma R_start : NoDup (addrs H0) -> R (fun _ => VNull) sstart start.
Proof.
  intros H. split; cbn; auto; try tauto; try (constructor).
  - intros x v Hx. repeat (destruct Hx as [Hx|Hx]; [injection Hx as <- <-; exact I|]). destruct Hx.
  - intros _ i Hi. lia.
Qed.

End Sim.

(** If the symbolic run gives back every block, the actual run gives back the initial heap. *)
Theorem balanced u H0 al p c' : allocator_ok al -> NoDup (addrs H0) -> sexec p sstart = Some c' -> s_heap c' = [] ->
  exists s', exec al p (start u H0) = Ok s' /\ m_heap s' = H0 /\ forall a, In (EFree a) (m_log s') -> ~ In a (addrs H0).
Proof.
  intros Hal HN E Eh. destruct (sexec_ok u H0 False al Hal ltac:(tauto) _ _ _ _ _ (R_start u H0 False HN) E) as [f' [s' [E1 H]]].
  exists s'. split; auto. split; [|exact (r_log _ _ _ _ _ _ H)]. rewrite (r_heap _ _ _ _ _ _ H), Eh. reflexivity.
Qed.

(** Otherwise the blocks left over stay allocated. *)
Theorem leftover u H0 al p c' : allocator_ok al -> (forall log h b, al log h b <> VNull) -> NoDup (addrs H0) ->
  sexec p sstart = Some c' ->
  exists s' leaked, exec al p (start u H0) = Ok s' /\ m_heap s' = leaked ++ H0 /\ length leaked = length (s_heap c').
Proof.
  intros Hal Hnn HN E. destruct (sexec_ok u H0 True al Hal ltac:(auto) _ _ _ _ _ (R_start u H0 True HN) E) as [f' [s' [E1 H]]].
  exists s', (ch u f' (s_heap c')). split; auto. split; [exact (r_heap _ _ _ _ _ _ H)|].
  assert (L : forall i b, In (i, b) (s_heap c') -> exists a, f' i = VPtr a).
  { intros i b Hi. apply (r_nn _ _ _ _ _ _ H I). eapply (r_lt _ _ _ _ _ _ H); eauto. }
  clear - L. revert L. generalize (s_heap c'). intros l L. induction l as [|[i b] l IH]; auto. unfold ch in *. cbn [concat map flat_map]. rewrite app_length. cbn [length]. rewrite IH by (intros; eapply L; right; eauto).
  unfold ch1. cbn. destruct (L i b (or_introl eq_refl)) as [a ->]. reflexivity.
Qed.
