(** The invariant of the main loop of AMD_2 (src/amd_2.c:698-1553).

    Parameters: [me] is the pivot being eliminated (-1 between eliminations), [Lm] the variables of the element being
    built from it, [pend] those of [Lm] that the second scan has not yet visited.  Ghost state: [C i] is the list stored
    for object i; for a variable it consists of its elements [E i] and its variables [V i]; [rep i] is the object that
    variable i has been merged into; [dl] and [hb] are the degree lists and the hash buckets. *)
From Coq Require Import ZArith List Lia Bool.
From Verif Require Import Res Lists MAmd AmdBase AmdView AmdLists AmdGc.
Import ListNotations.
Open Scope Z_scope.
Open Scope res_scope.

Definition inb (x : Z) (l : list Z) : bool := existsb (Z.eqb x) l.
Lemma inb_in x l : inb x l = true <-> In x l.
Proof. unfold inb. rewrite existsb_exists. split; [intros [y [H E]]; apply Z.eqb_eq in E; subst; auto|exists x; rewrite Z.eqb_refl; auto]. Qed.
Lemma inb_spec x l : reflect (In x l) (inb x l).
Proof. apply iff_reflect. symmetry. apply inb_in. Qed.
Lemma inb_out x l : ~ In x l -> inb x l = false.
Proof. destruct (inb_spec x l); tauto. Qed.

Inductive Rooted (n : Z) (pe : Z -> Z) : Z -> Prop :=
| R_root i : 0 <= i < n -> -1 <= pe i -> Rooted n pe i
| R_step i : 0 <= i < n -> pe i < -1 -> Rooted n pe (FLIP (pe i)) -> Rooted n pe i.

Section Inv.
Variables (n iwlen pf0 : Z).

(** ** Kinds of objects *)
Definition var (v : vw) (i : Z) : Prop := 0 <= i < n /\ vNv v i <> 0 /\ 0 <= vElen v i.
Definition elt (v : vw) (e : Z) : Prop := 0 <= e < n /\ vElen v e < -1 /\ vW v e <> 0.
Definition varb (v : vw) (i : Z) : bool := negb (vNv v i =? 0) && (0 <=? vElen v i).
Lemma varb_spec v i : 0 <= i < n -> reflect (var v i) (varb v i).
Proof.
  intros Hi. apply iff_reflect. unfold varb, var. rewrite andb_true_iff, negb_true_iff, Z.eqb_neq, Z.leb_le. tauto.
Qed.

Definition kind (v : vw) (i : Z) : Prop :=
  (vNv v i <> 0 /\ 0 <= vElen v i /\ 0 <= vPe v i /\ 1 <= vW v i) \/
  (vElen v i < -1 /\ vNv v i <> 0 /\ 0 <= vPe v i /\ vW v i <> 0) \/
  (vElen v i < -1 /\ vNv v i <> 0 /\ vPe v i < 0 /\ vW v i = 0) \/
  (vElen v i = -1 /\ vNv v i = 0 /\ vPe v i < 0).

Definition wsum (v : vw) (P : Z -> bool) : Z := sumz (fun i => if varb v i && P i then Z.abs (vNv v i) else 0) (zr 0 n).

(** ** The assembly tree *)
Definition size (rep : Z -> Z) (r : Z) : Z := sumz (fun i => if rep i =? r then 1 else 0) (zr 0 n).

Record TREE (me nvp : Z) (v : vw) (rep : Z -> Z) : Prop := mkTREE {
  t_root : forall i, 0 <= i < n -> Rooted n (vPe v) i;
  t_par : forall i, 0 <= i < n -> vNv v i <> 0 -> vPe v i < -1 ->
            0 <= FLIP (vPe v i) < n /\ vNv v (FLIP (vPe v i)) <> 0 /\ (FLIP (vPe v i) = me \/ vElen v (FLIP (vPe v i)) < -1);
  t_rng : forall i, 0 <= i < n -> 0 <= rep i < n;
  t_self : forall i, 0 <= i < n -> vNv v i <> 0 \/ -1 <= vPe v i -> rep i = i;
  t_rep : forall i, 0 <= i < n -> vNv v i = 0 -> vPe v i < -1 -> rep i = rep (FLIP (vPe v i));
  t_sz : forall r, 0 <= r < n -> vNv v r <> 0 -> size rep r = if r =? me then nvp else Z.abs (vNv v r);
  t_nz : forall i, 0 <= i < n -> vNv v i = 0 -> vPe v i < -1 -> vNv v (rep i) <> 0
}.

(** ** The quotient graph *)
Record GRAPH (me : Z) (Lm pend : list Z) (v : vw) (C E V : Z -> list Z) : Prop := mkGRAPH {
  g_kind : forall i, 0 <= i < n -> kind v i;
  g_neg : forall i, 0 <= i < n -> vNv v i < 0 -> i = me \/ In i Lm;
  g_Lneg : forall i, var v i -> In i Lm -> vNv v i < 0;
  g_pos : forall i, 0 <= i < n -> 0 <= vPe v i -> i <> me -> 1 <= vLen v i;
  g_Lm : NoDup Lm;
  g_pendL : incl pend Lm;
  g_pend : forall i, In i pend -> var v i;
  g_var : forall i, var v i -> C i = E i ++ V i /\ vElen v i = zlen (E i) /\ NoDup (E i) /\ NoDup (V i);
  g_E : forall i e, var v i -> In e (E i) -> elt v e \/ (In i pend /\ 0 <= e < n /\ vElen v e < -1 /\ vW v e = 0);
  g_V : forall i j, var v i -> In j (V i) -> j <> i /\ 0 <= j < n /\ (var v j \/ vNv v j = 0 \/ (j = me /\ In i pend));
  g_sym : forall i j, var v i -> var v j -> ~ (In i Lm /\ In j Lm) -> In j (V i) -> In i (V j);
  g_VLm : forall i j, var v i -> In i Lm -> ~ In i pend -> In j (V i) -> ~ In j Lm;
  g_L : forall e i, elt v e -> In i (C e) -> var v i \/ vNv v i = 0;
  g_EL : forall i e, var v i -> elt v e -> e <> me -> (In e (E i) <-> In i (C e));
  g_ELme : forall i, var v i -> (In me (E i) <-> In i Lm /\ ~ In i pend);
  g_deg : forall e, elt v e -> e <> me ->
            vDeg v e = wsum v (fun i => inb e (E i)) /\ 0 < vDeg v e <= vle v;
  g_me : 0 <= me -> elt v me /\ C me = Lm /\ vNv v me < 0
}.

(** ** The degree lists *)
Record DLS (Lm : list Z) (v : vw) (dl hb : Z -> list Z) : Prop := mkDLS {
  d_hl : HL n v dl hb;
  d_dl : forall x d, In x (dl d) <-> var v x /\ 0 < vNv v x /\ vDeg v x = d;
  d_rng : forall x, var v x -> 0 <= vDeg v x < n;
  d_md : 0 <= vmd v /\ forall x, var v x -> 0 < vNv v x -> vmd v <= vDeg v x;
  d_hb : forall x d, In x (hb d) -> var v x /\ In x Lm /\ vNv v x < 0 /\ vLast v x = d
}.

Record INV (me : Z) (Lm pend : list Z) (nvp degme wb : Z) (v : vw) (C E V : Z -> list Z) (rep : Z -> Z) (dl hb : Z -> list Z) : Prop := mkINV {
  i_g : GRAPH me Lm pend v C E V;
  i_t : TREE me nvp v rep;
  i_d : DLS Lm v dl hb;
  i_m : Mem n v C (vpf v);
  i_used : used n v <= pf0;
  i_w : forall i, 0 <= i < n -> 0 <= vW v i < wb;
  i_tot : wsum v (fun _ => true) = n - vnel v;
  i_dme : degme = wsum v (fun i => inb i Lm);
  i_hi : vpf v <= iwlen
}.

(** ** Facts about the parts *)

Lemma Rooted_attach pe j p : (forall i, 0 <= i < n -> Rooted n pe i) -> 0 <= j < n -> 0 <= p < n -> p <> j -> -1 <= pe p ->
  forall i, 0 <= i < n -> Rooted n (fup pe j (FLIP p)) i.
Proof.
  intros H Hj Hp Ne Lp i Hi. specialize (H i Hi). induction H as [i Hi' L|i Hi' L R IH].
  - destruct (Z.eq_dec i j) as [->|Nj].
    + apply R_step; auto; rewrite fup_eq; [rewrite FLIP_val; lia|]. rewrite FLIP_FLIP. apply R_root; auto. rewrite fup_ne; auto.
    + apply R_root; auto. rewrite fup_ne; auto.
  - destruct (Z.eq_dec i j) as [->|Nj].
    + apply R_step; auto; rewrite fup_eq; [rewrite FLIP_val; lia|]. rewrite FLIP_FLIP. apply R_root; auto. rewrite fup_ne; auto.
    + apply R_step; auto; rewrite fup_ne; auto. apply IH. inversion R; auto.
Qed.

Lemma Rooted_ext pe pe' : (forall i, 0 <= i < n -> pe' i = pe i \/ (-1 <= pe i /\ -1 <= pe' i)) ->
  (forall i, 0 <= i < n -> Rooted n pe i) -> forall i, 0 <= i < n -> Rooted n pe' i.
Proof.
  intros H R i Hi. specialize (R i Hi). induction R as [i Hi' L|i Hi' L R IH].
  - apply R_root; auto. destruct (H i Hi); lia.
  - destruct (H i Hi) as [E|E]; [|lia]. apply R_step; auto; rewrite E; auto. apply IH. inversion R; auto.
Qed.

Lemma size_attach rep rep' j p : (forall i, 0 <= i < n -> rep' i = if rep i =? j then p else rep i) -> j <> p ->
  size rep' p = size rep p + size rep j /\ (forall r, r <> p -> r <> j -> size rep' r = size rep r).
Proof.
  intros H Ne. unfold size. split.
  - rewrite <- sumz_plus. apply sumz_ext. intros i Hi. apply in_zr in Hi. rewrite H by auto.
    destruct (Z.eqb_spec (rep i) j) as [->|X]; [rewrite !Z.eqb_refl; destruct (Z.eqb_spec j p); [congruence|lia]|].
    destruct (rep i =? p); lia.
  - intros r N1 N2. apply sumz_ext. intros i Hi. apply in_zr in Hi. rewrite H by auto.
    destruct (Z.eqb_spec (rep i) j) as [->|X]; auto.
    destruct (Z.eqb_spec p r); destruct (Z.eqb_spec j r); congruence.
Qed.

(** Variable j is merged into p. *)
Lemma TREE_merge me nvp nvp' v v' rep j p : TREE me nvp v rep -> 0 <= j < n -> 0 <= p < n -> p <> j -> j <> me ->
  vNv v j <> 0 -> vNv v p <> 0 -> -1 <= vPe v p -> 0 <= vElen v j ->
  vPe v' = fup (vPe v) j (FLIP p) -> (forall i, i <> j -> vElen v i < -1 -> vElen v' i < -1) ->
  vNv v' j = 0 -> (forall i, i <> j -> i <> p -> vNv v' i = vNv v i) -> vNv v' p <> 0 ->
  (forall i, 0 <= i < n -> i <> j -> (if i =? me then nvp' else Z.abs (vNv v' i)) =
     (if i =? me then nvp else Z.abs (vNv v i)) + if i =? p then Z.abs (vNv v j) else 0) ->
  exists rep', TREE me nvp' v' rep'.
Proof.
  intros T Hj Hp Ne Njm Nj Np Lp Ej Epe Eel E1 E2 E3 E4.
  assert (Nz : forall i, i <> j -> (vNv v' i = 0 <-> vNv v i = 0)).
  { intros i Ni. destruct (Z.eq_dec i p) as [->|]; [tauto|]. rewrite E2; tauto. }
  exists (fun i => if rep i =? j then p else rep i).
  destruct (size_attach rep (fun i => if rep i =? j then p else rep i) j p) as [S1 S2]; auto.
  constructor.
  - rewrite Epe. apply Rooted_attach; auto. apply T.
  - intros i Hi Ni Li. destruct (Z.eq_dec i j) as [->|Nij]; [congruence|]. rewrite Epe, fup_ne in * by auto.
    destruct (t_par _ _ _ _ T i Hi) as [A [B D]]; auto; [rewrite <- Nz; auto|].
    assert (FLIP (vPe v i) <> j). { intros X. rewrite X in *. destruct D; [auto|lia]. }
    split; auto. split; [rewrite Nz; auto|]. destruct D; auto.
  - intros i Hi. pose proof (t_rng _ _ _ _ T i Hi). destruct (rep i =? j); auto.
  - intros i Hi H. rewrite Epe in H. destruct (Z.eq_dec i j) as [->|Nij].
    + rewrite fup_eq, FLIP_val in H. destruct H; [congruence|lia].
    + rewrite fup_ne in H by auto. rewrite Nz in H by auto. rewrite (t_self _ _ _ _ T i Hi H).
      destruct (Z.eqb_spec i j); congruence.
  - intros i Hi Z0 L. rewrite Epe in *. destruct (Z.eq_dec i j) as [->|Nij].
    + rewrite fup_eq, FLIP_FLIP. rewrite (t_self _ _ _ _ T j), (t_self _ _ _ _ T p), Z.eqb_refl by auto.
      destruct (Z.eqb_spec p j); congruence.
    + rewrite fup_ne in * by auto. rewrite <- (t_rep _ _ _ _ T i Hi); auto. apply Nz; auto.
  - intros r Hr Nr. assert (r <> j) by congruence. rewrite E4 by auto. destruct (Z.eqb_spec r p) as [->|Nrp].
    + rewrite S1, (t_sz _ _ _ _ T p), (t_sz _ _ _ _ T j) by auto. destruct (Z.eqb_spec j me); [congruence|]. reflexivity.
    + rewrite S2 by auto. rewrite (t_sz _ _ _ _ T r); [lia|auto|]. rewrite <- Nz; auto.
  - intros i Hi Z0 L. destruct (Z.eqb_spec (rep i) j) as [X|X]; auto. rewrite Nz by auto. rewrite Epe in L.
    destruct (Z.eq_dec i j) as [->|Nij]; [rewrite (t_self _ _ _ _ T j) by auto; auto|]. rewrite fup_ne in L by auto. apply T; auto. apply Nz; auto.
Qed.

(** Element e gets parent p. *)
Lemma TREE_adopt me nvp v v' rep e p : TREE me nvp v rep -> 0 <= e < n -> 0 <= p < n -> p <> e ->
  vNv v e <> 0 -> vNv v p <> 0 -> -1 <= vPe v p -> 0 <= vPe v e -> (p = me \/ vElen v p < -1) ->
  vPe v' = fup (vPe v) e (FLIP p) -> vElen v' = vElen v -> vNv v' = vNv v ->
  TREE me nvp v' rep.
Proof.
  intros T He Hp Ne Nve Nvp Lp Le Dp Epe Eel Env. constructor.
  - rewrite Epe. apply Rooted_attach; auto. apply T.
  - intros i Hi Ni Li. rewrite Epe, Eel, Env in *. destruct (Z.eq_dec i e) as [->|Nie].
    + rewrite fup_eq, FLIP_FLIP in *. auto.
    + rewrite fup_ne in * by auto. apply T; auto.
  - apply T.
  - intros i Hi H. rewrite Epe, Env in H. apply (t_self _ _ _ _ T i Hi). destruct (Z.eq_dec i e) as [->|Nie]; [auto|]. rewrite fup_ne in H; auto.
  - intros i Hi Z0 L. rewrite Epe, Env in *. destruct (Z.eq_dec i e) as [->|Nie]; [congruence|]. rewrite fup_ne in * by auto. apply T; auto.
  - intros r Hr Nr. rewrite Env in *. apply T; auto.
  - intros i Hi Z0 L. rewrite Epe, Env in *. destruct (Z.eq_dec i e) as [->|Nie]; [congruence|]. rewrite fup_ne in * by auto. apply T; auto.
Qed.

(** Changes that leave the tree alone. *)
Lemma TREE_frame me nvp v me' nvp' v' rep : TREE me nvp v rep ->
  (forall i, 0 <= i < n -> vPe v' i = vPe v i \/ (-1 <= vPe v i /\ -1 <= vPe v' i)) ->
  (forall i, 0 <= i < n -> vElen v i < -1 \/ i = me -> vElen v' i < -1 \/ i = me') ->
  (forall i, 0 <= i < n -> (vNv v' i = 0 <-> vNv v i = 0)) ->
  (forall i, 0 <= i < n -> vNv v i <> 0 -> (if i =? me' then nvp' else Z.abs (vNv v' i)) = (if i =? me then nvp else Z.abs (vNv v i))) ->
  TREE me' nvp' v' rep.
Proof.
  intros T Epe Eel Ez Es. constructor.
  - apply (Rooted_ext (vPe v)); auto. apply T.
  - intros i Hi Ni Li. destruct (Epe i Hi) as [E|E]; [|lia]. rewrite E in *. rewrite Ez in Ni by auto.
    destruct (t_par _ _ _ _ T i Hi Ni Li) as [A [B D]]. split; auto. split; [rewrite Ez; auto|].
    destruct (Eel _ A) as [X|X]; auto. tauto.
  - apply T.
  - intros i Hi H. apply (t_self _ _ _ _ T i Hi). rewrite Ez in H by auto. destruct H as [H|H]; auto.
    destruct (Epe i Hi) as [E|E]; [rewrite <- E; auto|tauto].
  - intros i Hi Z0 L. destruct (Epe i Hi) as [E|E]; [|lia]. rewrite E in *. apply T; auto. apply Ez; auto.
  - intros r Hr Nr. rewrite Ez in Nr by auto. rewrite Es by auto. apply T; auto.
  - intros i Hi Z0 L. destruct (Epe i Hi) as [E|E]; [|lia]. rewrite E in *. rewrite Ez by (apply T; auto). apply T; auto. apply Ez; auto.
Qed.

Lemma wsum_ext v v' P P' : (forall i, 0 <= i < n -> varb v i && P i = varb v' i && P' i) ->
  (forall i, 0 <= i < n -> var v i -> P i = true -> Z.abs (vNv v i) = Z.abs (vNv v' i)) -> wsum v P = wsum v' P'.
Proof.
  intros H1 H2. apply sumz_ext. intros i Hi. apply in_zr in Hi. rewrite <- H1 by auto.
  destruct (varb_spec v i Hi); simpl; auto. destruct (P i) eqn:E; auto.
Qed.

Lemma wsum_nonneg v P : 0 <= wsum v P.
Proof. apply sumz_nonneg. intros i _. destruct (varb v i && P i); lia. Qed.

Lemma wsum_pos v P i : var v i -> P i = true -> Z.abs (vNv v i) <= wsum v P.
Proof.
  intros Hv Hp. destruct Hv as [Hi Hv]. 
  assert (Z.abs (vNv v i) = (if varb v i && P i then Z.abs (vNv v i) else 0)).
  { destruct (varb_spec v i Hi) as [_|X]; [rewrite Hp; auto|]. exfalso. apply X. split; auto. }
  rewrite H. apply (sumz_ge_term (fun i => if varb v i && P i then Z.abs (vNv v i) else 0)); [|apply in_zr; auto].
  intros k _. destruct (varb v k && P k); lia.
Qed.

Lemma wsum_0 v P : wsum v P = 0 -> forall i, var v i -> P i = false.
Proof.
  intros H i Hv. destruct (P i) eqn:E; auto. pose proof (wsum_pos v P i Hv E). destruct Hv as [_ [Hv _]]. lia.
Qed.

Lemma wsum_le v P P' : (forall i, var v i -> P i = true -> P' i = true) -> wsum v P <= wsum v P'.
Proof.
  intros H. apply sumz_le. intros i Hi. apply in_zr in Hi. destruct (varb_spec v i Hi); simpl; [|lia].
  destruct (P i) eqn:E; [rewrite (H i v0 E); lia|]. destruct (P' i); lia.
Qed.

Lemma wsum_none v P : (forall i, var v i -> P i = false) -> wsum v P = 0.
Proof.
  intros H. apply sumz_zero. intros i Hi. apply in_zr in Hi. destruct (varb_spec v i Hi); simpl; auto. rewrite H; auto.
Qed.

Lemma wsum_split v P P' : wsum v P = wsum v (fun i => P i && P' i) + wsum v (fun i => P i && negb (P' i)).
Proof.
  unfold wsum. rewrite <- sumz_plus. apply sumz_ext. intros i _. destruct (varb v i), (P i), (P' i); simpl; lia.
Qed.

(** A sum over a list of distinct variables. *)
Lemma wsum_list v l : NoDup l -> (forall i, In i l -> var v i) -> wsum v (fun i => inb i l) = sumz (fun i => Z.abs (vNv v i)) l.
Proof.
  intros ND H. unfold wsum. induction l as [|x l IH].
  - simpl. apply sumz_zero. intros i _. rewrite andb_false_r. auto.
  - inversion ND; subst. cbn [sumz]. rewrite <- IH; auto; [|intros; apply H; right; auto].
    destruct (H x (or_introl eq_refl)) as [Hx Hv].
    rewrite (sumz_ext (fun i => if varb v i && inb i (x :: l) then Z.abs (vNv v i) else 0)
      (fup (fun i => if varb v i && inb i l then Z.abs (vNv v i) else 0) x (Z.abs (vNv v x)))).
    + rewrite sumz_fup; [|apply NoDup_zr|apply in_zr; auto]. rewrite (inb_out x l) by auto. rewrite andb_false_r. lia.
    + intros i Hi. unfold fup. cbn [inb existsb]. destruct (Z.eqb_spec i x) as [->|Ne]; simpl; auto.
      destruct (varb_spec v x Hx) as [_|X]; auto. exfalso. apply X. split; auto.
Qed.

Lemma kind_var v i : kind v i -> var v i -> 0 <= vPe v i /\ 1 <= vW v i.
Proof. unfold kind, var. lia. Qed.
Lemma kind_elt v i : kind v i -> elt v i -> 0 <= vPe v i /\ vNv v i <> 0.
Proof. unfold kind, elt. lia. Qed.
Lemma kind_live v i : kind v i -> 0 <= i < n -> 0 <= vPe v i -> var v i \/ elt v i.
Proof. unfold kind, var, elt. lia. Qed.
Lemma var_elt v i : var v i -> elt v i -> False.
Proof. unfold var, elt. lia. Qed.
End Inv.
