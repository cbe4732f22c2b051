(** The second scan, src/amd_2.c:1083-1284: degrees, element absorption, mass elimination and hashing. *)
From Coq Require Import ZArith List Lia Bool.
From RecordUpdate Require Import RecordUpdate.
From Verif Require Import Res Lists MAmd AmdBase AmdView AmdLists AmdGc AmdInv AmdBuild AmdScan1.
Import ListNotations.
Open Scope Z_scope.
Open Scope res_scope.

Lemma used_le n v v' : (forall i, 0 <= i < n -> 0 <= vPe v' i -> 0 <= vPe v i /\ vLen v' i <= vLen v i) ->
  (forall i, 0 <= i < n -> 0 <= vPe v i -> 0 <= vLen v i) -> used n v' <= used n v.
Proof.
  intros H P. apply sumz_le. intros i Hi. apply in_zr in Hi. unfold live.
  destruct (Z.leb_spec 0 (vPe v' i)) as [L|L]; destruct (Z.leb_spec 0 (vPe v i)) as [L2|L2]; try lia.
  - apply H; auto.
  - destruct (H i Hi L). lia.
  - apply P; auto.
Qed.

Lemma Mem_len n v C lim i : Mem n v C lim -> 0 <= i < n -> 0 <= vPe v i -> 0 <= vLen v i.
Proof. intros M Hi L. rewrite (m_len _ _ _ _ M i Hi L). apply zlen_nonneg. Qed.

(** Objects may die. *)
Lemma Mem_die n v v' C lim : Mem n v C lim -> (forall i, 0 <= i < n -> 0 <= vPe v' i -> vPe v' i = vPe v i) ->
  vLen v' = vLen v -> vIw v' = vIw v -> vpf v' = vpf v -> vhi v' = vhi v -> Mem n v' C lim.
Proof.
  intros [m1 m2 m3 m4 m5 m6 m7] EP EL EI Ef Eh. constructor; rewrite ?EL, ?EI, ?Ef, ?Eh; auto.
  - intros i Hi L. rewrite EP in L by auto. auto.
  - intros i Hi L. rewrite EP in * by auto. auto.
  - intros i Hi L. rewrite EP in * by auto. auto.
  - intros i j Hi Hj Ne Li Lj. rewrite (EP i), (EP j) in * by auto. auto.
Qed.

(** The contents of one object may be replaced in place by a shorter list. *)
Lemma Mem_put n v v' C lim x l : Mem n v C lim -> 0 <= x < n -> 0 <= vPe v x -> zlen l <= vLen v x ->
  vPe v' = vPe v -> vLen v' = fup (vLen v) x (zlen l) -> cells (vIw v') (vPe v x) l ->
  (forall q, ~ (vPe v x <= q < vPe v x + zlen l) -> vIw v' q = vIw v q) -> (forall y, In y l -> 0 <= y < n) ->
  vpf v' = vpf v -> vhi v' = vhi v -> Mem n v' (lset C x l) lim.
Proof.
  intros M Hx Lx Hl EP EL Cl EI Rl Ef Eh. pose proof (zlen_nonneg l) as Z0. constructor; rewrite ?EP, ?EL, ?Ef, ?Eh.
  - intros i Hi L. destruct (Z.eq_dec i x) as [->|Ne]; [rewrite fup_eq, lset_eq; auto|]. rewrite fup_ne, lset_ne by auto. apply M; auto.
  - intros i Hi L. destruct (Z.eq_dec i x) as [->|Ne]; [rewrite lset_eq; auto|]. rewrite lset_ne by auto.
    apply (cells_ext (vIw v)); [|apply M; auto]. intros q Hq. apply EI. rewrite <- (m_len _ _ _ _ M i Hi L) in Hq.
    pose proof (m_dis _ _ _ _ M i x Hi Hx Ne L Lx). lia.
  - intros i Hi L. pose proof (m_lim _ _ _ _ M i Hi L). destruct (Z.eq_dec i x) as [->|Ne]; [rewrite fup_eq; lia|]. rewrite fup_ne by auto. auto.
  - intros i j Hi Hj Ne Li Lj. pose proof (m_dis _ _ _ _ M i j Hi Hj Ne Li Lj).
    destruct (Z.eq_dec i x) as [->|Ni]; [|destruct (Z.eq_dec j x) as [->|Nj]]; rewrite ?fup_eq, ?fup_ne by auto; lia.
  - apply M.
  - apply M.
  - intros q Hq. destruct (Z_le_dec (vPe v x) q) as [L1|L1]; [destruct (Z_lt_dec q (vPe v x + zlen l)) as [L2|L2]|].
    2, 3: rewrite EI by lia; apply M; auto.
    replace q with (vPe v x + Z.of_nat (Z.to_nat (q - vPe v x))) by lia. rewrite (cells_nth _ _ _ _ 0 Cl) by (unfold zlen in *; lia).
    apply Rl. apply nth_In. unfold zlen in *. lia.
Qed.

Section Scan2.
Variables (n iwlen pf0 : Z) (aggressive : bool).
Notation Vw := (Vw n iwlen).
Notation var := (var n).
Notation elt := (elt n).
Variables (me : Z) (Lm : list Z) (f : Z).
Hypothesis Hm : 0 <= me.
Hypothesis Hf : 1 <= f.

Record S2 (pend : list Z) (nvp D : Z) (v : vw) (C E V : Z -> list Z) (rep : Z -> Z) (dl hb : Z -> list Z) : Prop := mkS2 {
  s_inv : INV n iwlen pf0 me Lm pend nvp D (f + Z.max 0 (vle v)) v C E V rep dl hb;
  s_wf : vwf v = f;
  s_t : forall i e, var v i -> In i Lm -> In e (E i) -> elt v e -> e <> me -> f <= vW v e;
  s_val : forall e, elt v e -> e <> me -> f <= vW v e -> vW v e = f + wsum n v (fun i => inb e (E i) && negb (inb i Lm));
  s_agg : aggressive = true -> forall i e, var v i -> In i Lm -> ~ In i pend -> In e (E i) -> e <> me -> f < vW v e;
  s_drop : forall i, In i pend -> In me (V i) \/ exists e, In e (E i) /\ vW v e = 0;
  s_last : forall i, var v i -> In i Lm -> ~ In i pend -> 0 <= vLast v i < n /\ In i (hb (vLast v i));
  s_hb : forall x d, In x (hb d) -> ~ In x pend;
  s_E : forall i, var v i -> In i Lm -> ~ In i pend -> exists t, E i = me :: t;
  s_nd : NoDup pend
}.

(** An element all of whose variables belong to the new element is absorbed. *)
Lemma kill_S2 pend nvp D v C E V rep dl hb i e : S2 pend nvp D v C E V rep dl hb -> In i pend -> In e (E i) -> vW v e <> 0 ->
  aggressive = true -> vW v e <= f ->
  S2 pend nvp D (uW (uPe v (fup (vPe v) e (FLIP me))) (fup (vW v) e 0)) C E V rep dl hb.
Proof.
  intros S Hi He We Ag Wf. pose proof (s_inv _ _ _ _ _ _ _ _ _ _ S) as I0. pose proof (i_g _ _ _ _ _ _ _ _ _ _ _ _ _ _ _ _ I0) as G0.
  pose proof (g_pend _ _ _ _ _ _ _ _ G0 i Hi) as Vi.
  assert (HiL : In i Lm) by (apply (g_pendL _ _ _ _ _ _ _ _ G0); auto).
  assert (Ee : elt v e). { destruct (g_E _ _ _ _ _ _ _ _ G0 i e Vi He) as [X|[_ [_ [_ X]]]]; [auto|congruence]. }
  assert (Ne : e <> me). { intros ->. apply (g_ELme _ _ _ _ _ _ _ _ G0 i Vi) in He. tauto. }
  assert (Re : 0 <= e < n) by apply Ee.
  destruct (g_me _ _ _ _ _ _ _ _ G0 Hm) as [Em [ECm Nm]]. assert (Rm : 0 <= me < n) by apply Em.
  destruct (kind_elt _ _ _ (g_kind _ _ _ _ _ _ _ _ G0 e Re) Ee) as [Pe' Nve].
  destruct (kind_elt _ _ _ (g_kind _ _ _ _ _ _ _ _ G0 me Rm) Em) as [Pm Nvm].
  pose proof (s_t _ _ _ _ _ _ _ _ _ _ S i e Vi HiL He Ee Ne) as Wt.
  pose proof (s_val _ _ _ _ _ _ _ _ _ _ S e Ee Ne Wt) as Wv.
  assert (Hold : forall j, var v j -> In e (E j) -> In j pend).
  { intros j Vj Hj. destruct (in_dec Z.eq_dec j Lm) as [X|X].
    - destruct (in_dec Z.eq_dec j pend) as [Y|Y]; auto. exfalso. pose proof (s_agg _ _ _ _ _ _ _ _ _ _ S Ag j e Vj X Y Hj Ne). lia.
    - exfalso. pose proof (wsum_0 n v (fun i => inb e (E i) && negb (inb i Lm)) ltac:(lia) j Vj) as Z. cbv beta in Z.
      rewrite (inb_out j Lm) in Z by auto. apply inb_in in Hj. rewrite Hj in Z. discriminate. }
  set (v' := uW (uPe v (fup (vPe v) e (FLIP me))) (fup (vW v) e 0)).
  assert (Vv : forall j, var v' j <-> var v j) by reflexivity.
  assert (Ev : forall x, elt v' x <-> elt v x /\ x <> e).
  { intros x. unfold elt, v'. vs. destruct (Z.eq_dec x e) as [->|Nx]; [rewrite fup_eq|rewrite fup_ne by auto]; tauto. }
  assert (Wx : forall x, x <> e -> vW v' x = vW v x) by (intros; unfold v'; vs; apply fup_ne; auto).
  assert (W0 : forall x, vW v x = 0 -> vW v' x = 0).
  { intros x Hx. unfold v'. vs. destruct (Z.eq_dec x e) as [->|]; [apply fup_eq|rewrite fup_ne; auto]. }
  constructor.
  - constructor.
    + constructor; try apply G0.
      * intros x Hx. unfold kind, v'. vs. destruct (Z.eq_dec x e) as [->|Nx].
        -- right; right; left. rewrite !fup_eq, FLIP_val. destruct Ee as [_ [Ee _]]. split; [auto|]. split; [auto|]. split; [lia|auto].
        -- rewrite !fup_ne by auto. apply G0; auto.
      * intros x Hx Lx. unfold v' in *. vs. destruct (Z.eq_dec x e) as [->|Nx]; [rewrite fup_eq, FLIP_val in Lx; lia|].
        rewrite fup_ne in Lx by auto. apply (g_pos _ _ _ _ _ _ _ _ G0); auto.
      * intros j x Vj Hx. apply Vv in Vj. rewrite Ev. destruct (Z.eq_dec x e) as [->|Nx].
        -- right. split; [apply Hold; auto|]. split; auto. split; [apply Ee|]. unfold v'. vs. apply fup_eq.
        -- rewrite Wx by auto. destruct (g_E _ _ _ _ _ _ _ _ G0 j x Vj Hx); auto.
      * intros x j Ex. apply Ev in Ex. apply (g_L _ _ _ _ _ _ _ _ G0); tauto.
      * intros j x Vj Ex. apply Ev in Ex. apply (g_EL _ _ _ _ _ _ _ _ G0); tauto.
      * intros x Ex Nx. apply Ev in Ex. apply (g_deg _ _ _ _ _ _ _ _ G0); tauto.
      * intros _. split; [apply Ev; auto|auto].
    + apply (TREE_adopt n me nvp v v' rep e me); auto; [apply I0|lia].
    + destruct (i_d _ _ _ _ _ _ _ _ _ _ _ _ _ _ _ _ I0). constructor; auto. destruct d_hl. constructor; auto.
    + eapply Mem_die; [apply I0|intros x Hx Lx; unfold v' in *; vs|reflexivity..].
      destruct (Z.eq_dec x e) as [->|Nx]; [rewrite fup_eq, FLIP_val in Lx; lia|]. apply fup_ne; auto.
    + eapply Z.le_trans; [apply (used_le n v v')|apply I0].
      * intros x Hx Lx. unfold v' in *; vs. destruct (Z.eq_dec x e) as [->|Nx]; [rewrite fup_eq, FLIP_val in Lx; lia|]. rewrite fup_ne in Lx by auto. lia.
      * intros x Hx Lx. eapply Mem_len; [apply I0|auto|auto].
    + intros x Hx. unfold v'. vs. destruct (Z.eq_dec x e) as [->|Nx]; [rewrite fup_eq; lia|]. rewrite fup_ne by auto. apply I0; auto.
    + apply I0.
    + apply I0.
    + apply I0.
  - apply S.
  - intros j x Vj Hj Hx Ex Nx. apply Ev in Ex. rewrite Wx by tauto. apply (s_t _ _ _ _ _ _ _ _ _ _ S j); tauto.
  - intros x Ex Nx Lx. apply Ev in Ex. rewrite Wx in * by tauto. apply (s_val _ _ _ _ _ _ _ _ _ _ S); tauto.
  - intros _ j x Vj Hj Nj Hx Nx. assert (x <> e) by (intros ->; apply Nj; apply Hold; auto). rewrite Wx by auto. apply (s_agg _ _ _ _ _ _ _ _ _ _ S Ag j); auto.
  - intros j Hj. destruct (s_drop _ _ _ _ _ _ _ _ _ _ S j Hj) as [X|[x [Hx X]]]; auto. right. exists x. auto.
  - apply S.
  - apply S.
  - apply S.
  - apply S.
Qed.

(** Mass elimination: i is merged into me. *)
Lemma mass_S2 i rest nvp D v C E V rep dl hb : S2 (i :: rest) nvp D v C E V rep dl hb ->
  (forall e, In e (E i) -> vW v e = 0) ->
  exists rep', S2 rest (nvp - vNv v i) (D + vNv v i)
    (uElen (uNv (unel (uPe v (fup (vPe v) i (FLIP me))) (vnel v - vNv v i)) (fup (vNv v) i 0)) (fup (vElen v) i EMPTY)) C E V rep' dl hb.
Proof.
  intros S HE. pose proof (s_inv _ _ _ _ _ _ _ _ _ _ S) as I0. pose proof (i_g _ _ _ _ _ _ _ _ _ _ _ _ _ _ _ _ I0) as G0.
  pose proof (g_pend _ _ _ _ _ _ _ _ G0 i (or_introl eq_refl)) as Vi.
  assert (HiL : In i Lm) by (apply (g_pendL _ _ _ _ _ _ _ _ G0); left; auto).
  pose proof (s_nd _ _ _ _ _ _ _ _ _ _ S) as ND. inversion ND as [|? ? Nir NDr]; subst.
  pose proof (g_Lneg _ _ _ _ _ _ _ _ G0 i Vi HiL) as Ni.
  destruct (g_me _ _ _ _ _ _ _ _ G0 Hm) as [Em [ECm Nm]]. assert (Rm : 0 <= me < n) by apply Em.
  destruct (kind_elt _ _ _ (g_kind _ _ _ _ _ _ _ _ G0 me Rm) Em) as [Pm Nvm].
  assert (Ri : 0 <= i < n) by apply Vi.
  assert (Nim : i <> me) by (intros ->; exact (var_elt _ _ _ Vi Em)).
  set (v' := uElen (uNv (unel (uPe v (fup (vPe v) i (FLIP me))) (vnel v - vNv v i)) (fup (vNv v) i 0)) (fup (vElen v) i EMPTY)).
  assert (Vv : forall x, var v' x <-> var v x /\ x <> i).
  { intros x. unfold var, v'. vs. destruct (Z.eq_dec x i) as [->|Nx]; [rewrite !fup_eq|rewrite !fup_ne by auto]; tauto. }
  assert (Ev : forall x, elt v' x <-> elt v x).
  { intros x. unfold elt, v'. vs. destruct (Z.eq_dec x i) as [->|Nx]; [rewrite !fup_eq, EMPTY_val|rewrite !fup_ne by auto; tauto].
    destruct Vi as [_ [_ X]]. lia. }
  assert (Nvx : forall x, x <> i -> vNv v' x = vNv v x) by (intros; unfold v'; vs; apply fup_ne; auto).
  assert (Nvi : vNv v' i = 0) by (unfold v'; vs; apply fup_eq).
  assert (Elx : forall x, x <> i -> vElen v' x = vElen v x) by (intros; unfold v'; vs; apply fup_ne; auto).
  assert (Pex : forall x, x <> i -> vPe v' x = vPe v x) by (intros; unfold v'; vs; apply fup_ne; auto).
  assert (Pei : vPe v' i < -1) by (unfold v'; vs; rewrite fup_eq, FLIP_val; lia).
  assert (Pr : forall x, x <> i -> In x rest <-> In x (i :: rest)) by (intros x Nx; simpl; intuition congruence).
  assert (Ws : forall P, P i = false -> wsum n v' P = wsum n v P).
  { intros P HP. apply wsum_ext.
    - intros x Hx. destruct (varb_spec n v x Hx) as [X|X]; destruct (varb_spec n v' x Hx) as [Y|Y]; rewrite Vv in Y; simpl; auto; [|tauto].
      assert (x = i) as -> by (destruct (Z.eq_dec x i); tauto). auto.
    - intros x Hx X _. apply Vv in X. rewrite Nvx by tauto. auto. }
  assert (Wr : forall P, P i = true -> wsum n v' P = wsum n v P + vNv v i).
  { intros P HP. rewrite (wsum_remove n v P (fun x => P x && negb (x =? i)) i Vi); auto.
    - rewrite <- Ws by (rewrite Z.eqb_refl, andb_false_r; auto). replace (Z.abs (vNv v i)) with (- vNv v i) by lia.
      replace (wsum n v' (fun x => P x && negb (x =? i))) with (wsum n v' P); [lia|]. apply wsum_ext; auto. intros x Hx.
      destruct (varb_spec n v' x Hx) as [X|X]; simpl; auto. apply Vv in X. destruct (Z.eqb_spec x i); [tauto|]. rewrite andb_true_r. auto.
    - rewrite Z.eqb_refl, andb_false_r. auto.
    - intros j _ Nj. destruct (Z.eqb_spec j i); [congruence|]. rewrite andb_true_r. auto. }
  destruct (TREE_merge n me nvp (nvp - vNv v i) v v' rep i me) as [rep' T']; auto.
  { apply I0. } { lia. } { lia. } { apply Vi. }
  { intros x Nx. rewrite Elx; auto. }
  { rewrite Nvx; auto. }
  { intros x Hx Nx. rewrite Nvx by auto. destruct (Z.eqb_spec x me); lia. }
  exists rep'. constructor.
  - constructor; auto.
    + constructor.
      * intros x Hx. unfold kind. destruct (Z.eq_dec x i) as [->|Nx].
        -- right; right; right. rewrite Nvi. unfold v' at 1. vs. rewrite fup_eq, EMPTY_val. split; [auto|]. split; [auto|lia].
        -- rewrite Nvx, Elx, Pex by auto. apply G0; auto.
      * intros x Hx Lx. destruct (Z.eq_dec x i) as [->|Nx]; [lia|]. rewrite Nvx in Lx by auto. apply G0; auto.
      * intros x Vx Hx. apply Vv in Vx. rewrite Nvx by tauto. apply G0; tauto.
      * intros x Hx Lx Nx. destruct (Z.eq_dec x i) as [->|Nxi]; [lia|]. rewrite Pex in Lx by auto. apply (g_pos _ _ _ _ _ _ _ _ G0); auto.
      * apply G0.
      * intros x Hx. apply G0. right; auto.
      * intros x Hx. apply Vv. split; [apply G0; right; auto|congruence].
      * intros x Vx. apply Vv in Vx. rewrite Elx by tauto. apply G0; tauto.
      * intros x e Vx He. apply Vv in Vx. rewrite Ev. rewrite Pr by tauto.
        destruct (g_E _ _ _ _ _ _ _ _ G0 x e (proj1 Vx) He) as [X|[X1 [X2 [X3 X4]]]]; auto. right.
        split; auto. split; auto. split; auto. rewrite Elx; auto. intros ->. destruct Vi as [_ [_ Y]]. lia.
      * intros x j Vx Hj. apply Vv in Vx. destruct (g_V _ _ _ _ _ _ _ _ G0 x j (proj1 Vx) Hj) as [A1 [A2 A3]]. split; auto. split; auto.
        destruct (Z.eq_dec j i) as [->|Nj]; auto. rewrite Vv, Nvx by auto. rewrite Pr by tauto. tauto.
      * intros x j Vx Vj. apply Vv in Vx, Vj. apply G0; tauto.
      * intros x j Vx Hx Nx. apply Vv in Vx. rewrite Pr in Nx by tauto. apply (g_VLm _ _ _ _ _ _ _ _ G0); tauto.
      * intros e x Ee Hx. apply Ev in Ee. destruct (Z.eq_dec x i) as [->|Nx]; auto. rewrite Vv, Nvx by auto.
        destruct (g_L _ _ _ _ _ _ _ _ G0 e x Ee Hx); auto.
      * intros x e Vx Ee Ne. apply Vv in Vx. apply Ev in Ee. apply (g_EL _ _ _ _ _ _ _ _ G0); tauto.
      * intros x Vx. apply Vv in Vx. rewrite Pr by tauto. apply (g_ELme _ _ _ _ _ _ _ _ G0); tauto.
      * intros e Ee Ne. apply Ev in Ee. rewrite Ws; [apply (g_deg _ _ _ _ _ _ _ _ G0); auto|]. apply inb_out. intros X. apply HE in X. destruct Ee; tauto.
      * intros _. split; [apply Ev; auto|]. split; auto. rewrite Nvx; auto.
    + destruct (i_d _ _ _ _ _ _ _ _ _ _ _ _ _ _ _ _ I0). constructor.
      * destruct d_hl. constructor; auto.
      * intros x d. rewrite d_dl. rewrite Vv. destruct (Z.eq_dec x i) as [->|Nx]; [split; [lia|tauto]|]. rewrite Nvx by auto. unfold v'; vs. tauto.
      * intros x Vx. apply Vv in Vx. unfold v'; vs. apply d_rng; tauto.
      * unfold v'; vs. split; [tauto|]. intros x Vx Px. apply Vv in Vx. rewrite fup_ne in Px by tauto. apply d_md; tauto.
      * intros x d Hx. pose proof (s_hb _ _ _ _ _ _ _ _ _ _ S x d Hx) as Y. assert (x <> i) by (intros ->; apply Y; left; auto).
        destruct (d_hb x d Hx) as [X1 [X2 [X3 X4]]]. rewrite Vv, Nvx by auto. auto.
    + eapply Mem_die; [apply I0|intros x Hx Lx|reflexivity..]. destruct (Z.eq_dec x i) as [->|Nx]; [lia|apply Pex; auto].
    + eapply Z.le_trans; [apply (used_le n v v')|apply I0].
      * intros x Hx Lx. destruct (Z.eq_dec x i) as [->|Nx]; [lia|]. rewrite Pex in Lx by auto. unfold v'; vs. lia.
      * intros x Hx Lx. eapply Mem_len; [apply I0|auto|auto].
    + apply I0.
    + rewrite Wr by auto. pose proof (i_tot _ _ _ _ _ _ _ _ _ _ _ _ _ _ _ _ I0). unfold v'; vs. lia.
    + rewrite Wr by (apply inb_in; auto). pose proof (i_dme _ _ _ _ _ _ _ _ _ _ _ _ _ _ _ _ I0). lia.
    + apply I0.
  - apply S.
  - intros x e Vx Hx He Ee. apply Vv in Vx. apply Ev in Ee. apply (s_t _ _ _ _ _ _ _ _ _ _ S x); tauto.
  - intros e Ee Ne L. apply Ev in Ee. rewrite Ws; [apply S; auto|]. apply inb_in in HiL. rewrite HiL, andb_false_r. auto.
  - intros Ag x e Vx Hx Nx. apply Vv in Vx. rewrite Pr in Nx by tauto. apply (s_agg _ _ _ _ _ _ _ _ _ _ S Ag x); tauto.
  - intros x Hx. apply S. right; auto.
  - intros x Vx Hx Nx. apply Vv in Vx. rewrite Pr in Nx by tauto. apply S; tauto.
  - intros x d Hx Hr. apply (s_hb _ _ _ _ _ _ _ _ _ _ S x d Hx). right; auto.
  - intros x Vx Hx Nx. apply Vv in Vx. rewrite Pr in Nx by tauto. apply S; tauto.
  - auto.
Qed.

Definition rot (l : list Z) : list Z := tl l ++ firstn 1 l.
Lemma rot_in l x : In x (rot l) <-> In x l.
Proof. unfold rot. destruct l as [|y l]; simpl; [tauto|]. rewrite in_app_iff. simpl. tauto. Qed.
Lemma rot_nd l : NoDup l -> NoDup (rot l).
Proof.
  unfold rot. destruct l as [|y l]; simpl; auto. intros H. inversion H; subst. apply NoDup_app_iff. split; auto.
  split; [constructor; [intros []|constructor]|]. intros x Hx [<-|[]]. auto.
Qed.
Lemma rot_len l : zlen (rot l) = zlen l.
Proof. unfold rot. destruct l as [|y l]; simpl; auto. rewrite zlen_app, !zlen_cons. change (zlen (@nil Z)) with 0. lia. Qed.

Lemma zlen_filter_lt {A} (p : A -> bool) l x : In x l -> p x = false -> zlen (filter p l) + 1 <= zlen l.
Proof.
  induction l as [|y l IH]; simpl; [tauto|]. intros [->|H] Hp.
  - rewrite Hp, zlen_cons. pose proof (zlen_filter p l). lia.
  - specialize (IH H Hp). destruct (p y); rewrite !zlen_cons; lia.
Qed.

Definition keepE (v : vw) (e : Z) : bool := negb (vW v e =? 0).
Definition keepV (v : vw) (j : Z) : bool := 0 <? vNv v j.

Lemma keep_len i rest nvp D v C E V rep dl hb : S2 (i :: rest) nvp D v C E V rep dl hb ->
  zlen (filter (keepE v) (E i)) + zlen (filter (keepV v) (V i)) + 1 <= zlen (E i) + zlen (V i).
Proof.
  intros S. pose proof (s_inv _ _ _ _ _ _ _ _ _ _ S) as I0. pose proof (i_g _ _ _ _ _ _ _ _ _ _ _ _ _ _ _ _ I0) as G0.
  pose proof (zlen_filter (keepE v) (E i)). pose proof (zlen_filter (keepV v) (V i)).
  destruct (s_drop _ _ _ _ _ _ _ _ _ _ S i (or_introl eq_refl)) as [X|[e [X W]]].
  - assert (keepV v me = false). { unfold keepV. apply Z.ltb_ge. destruct (g_me _ _ _ _ _ _ _ _ G0 Hm) as [_ [_ Y]]. lia. }
    pose proof (zlen_filter_lt _ _ _ X H1). lia.
  - assert (keepE v e = false) by (unfold keepE; rewrite W; auto). pose proof (zlen_filter_lt _ _ _ X H1). lia.
Qed.

Lemma keep_S2 i rest nvp D v v' C E V rep dl hb h d : S2 (i :: rest) nvp D v C E V rep dl hb ->
  let K := filter (keepE v) (E i) in let KV := filter (keepV v) (V i) in let L := (me :: rot K) ++ rot KV in
  vPe v' = vPe v -> vNv v' = vNv v -> vW v' = vW v -> vle v' = vle v -> vwf v' = vwf v -> vpf v' = vpf v -> vhi v' = vhi v ->
  vnel v' = vnel v -> vmd v' = vmd v ->
  vElen v' = fup (vElen v) i (zlen K + 1) -> vDeg v' = fup (vDeg v) i d -> vLen v' = fup (vLen v) i (zlen L) ->
  cells (vIw v') (vPe v i) L -> (forall q, ~ (vPe v i <= q < vPe v i + zlen L) -> vIw v' q = vIw v q) ->
  0 <= d < n -> 0 <= h < n -> HL n v' dl (lset hb h (i :: hb h)) -> vLast v' i = h ->
  (forall x, x <> i -> (forall k, ~ In x (dl k)) -> vLast v' x = vLast v x) ->
  (aggressive = true -> forall e, In e K -> f < vW v e) ->
  S2 rest nvp D v' (lset C i L) (lset E i (me :: rot K)) (lset V i (rot KV)) rep dl (lset hb h (i :: hb h)).
Proof.
  intros S K KV L EPe ENv EW Ele Ewf Epf Ehi Enel Emd EEl EDg ELn Cl EIw Hd Hh HH ELi ELa HAg.
  pose proof (s_inv _ _ _ _ _ _ _ _ _ _ S) as I0. pose proof (i_g _ _ _ _ _ _ _ _ _ _ _ _ _ _ _ _ I0) as G0.
  pose proof (i_m _ _ _ _ _ _ _ _ _ _ _ _ _ _ _ _ I0) as M0.
  pose proof (g_pend _ _ _ _ _ _ _ _ G0 i (or_introl eq_refl)) as Vi.
  assert (HiL : In i Lm) by (apply (g_pendL _ _ _ _ _ _ _ _ G0); left; auto).
  pose proof (s_nd _ _ _ _ _ _ _ _ _ _ S) as ND. inversion ND as [|? ? Nir NDr]; subst x l.
  pose proof (g_Lneg _ _ _ _ _ _ _ _ G0 i Vi HiL) as Ni.
  destruct (g_me _ _ _ _ _ _ _ _ G0 Hm) as [Em [ECm Nm]]. assert (Rm : 0 <= me < n) by apply Em.
  assert (Ri : 0 <= i < n) by apply Vi.
  assert (Nim : i <> me) by (intros ->; exact (var_elt _ _ _ Vi Em)).
  destruct (g_var _ _ _ _ _ _ _ _ G0 i Vi) as [ECi [EEi [NDE NDV]]].
  destruct (kind_var _ _ _ (g_kind _ _ _ _ _ _ _ _ G0 i Ri) Vi) as [Li Wi].
  assert (ZL : zlen L = zlen K + zlen KV + 1). { unfold L. rewrite zlen_app, zlen_cons, !rot_len. lia. }
  pose proof (keep_len _ _ _ _ _ _ _ _ _ _ _ S) as KL. fold K KV in KL.
  assert (ZI : vLen v i = zlen (E i) + zlen (V i)) by (rewrite (m_len _ _ _ _ M0 i Ri Li), ECi, zlen_app; auto).
  pose proof (zlen_nonneg K) as ZK. pose proof (zlen_nonneg KV) as ZKV.
  assert (Elx : forall x, x <> i -> vElen v' x = vElen v x) by (intros; rewrite EEl, fup_ne; auto).
  assert (Eli : vElen v' i = zlen K + 1) by (rewrite EEl, fup_eq; auto).
  assert (Vv : forall x, var v' x <-> var v x).
  { intros x. unfold var. rewrite ENv. destruct (Z.eq_dec x i) as [->|Nx]; [|rewrite Elx by auto; tauto]. rewrite Eli. destruct Vi; lia. }
  assert (Ev : forall x, elt v' x <-> elt v x).
  { intros x. unfold elt. rewrite EW. destruct (Z.eq_dec x i) as [->|Nx]; [|rewrite Elx by auto; tauto]. rewrite Eli. destruct Vi as [_ [_ X]]; lia. }
  assert (InK : forall e, In e K <-> In e (E i) /\ elt v e).
  { intros e. unfold K, keepE. rewrite filter_In, negb_true_iff, Z.eqb_neq. split; [intros [X Y]|intros [X Y]; split; auto; apply Y].
    split; auto. destruct (g_E _ _ _ _ _ _ _ _ G0 i e Vi X) as [Z|[_ [_ [_ Z]]]]; [auto|congruence]. }
  assert (InKV : forall j, In j KV <-> In j (V i) /\ var v j /\ 0 < vNv v j).
  { intros j. unfold KV, keepV. rewrite filter_In, Z.ltb_lt. split; [|tauto]. intros [X Y]. split; auto. split; auto.
    destruct (g_V _ _ _ _ _ _ _ _ G0 i j Vi X) as [_ [_ [Z|[Z|[-> _]]]]]; [auto|lia|lia]. }
  assert (LmN : forall j, In j Lm -> vNv v j <= 0).
  { intros j Hj. rewrite <- ECm in Hj. destruct (g_L _ _ _ _ _ _ _ _ G0 me j Em Hj) as [X|X]; [|lia]. rewrite ECm in Hj.
    pose proof (g_Lneg _ _ _ _ _ _ _ _ G0 j X Hj). lia. }
  assert (NmE : ~ In me (E i)). { intros X. apply (g_ELme _ _ _ _ _ _ _ _ G0 i Vi) in X. destruct X as [_ X]. apply X. left; auto. }
  assert (NDK : NoDup (me :: rot K)).
  { constructor; [rewrite rot_in, InK; tauto|]. apply rot_nd. apply NoDup_filter; auto. }
  assert (NDKV : NoDup (rot KV)) by (apply rot_nd, NoDup_filter; auto).
  set (E' := lset E i (me :: rot K)). set (V' := lset V i (rot KV)).
  assert (InE : forall x e, In e (E' x) <-> (x = i /\ (e = me \/ (In e (E i) /\ elt v e))) \/ (x <> i /\ In e (E x))).
  { intros x e. unfold E'. destruct (Z.eq_dec x i) as [->|Nx].
    - rewrite lset_eq. simpl. rewrite rot_in, InK. intuition congruence.
    - rewrite lset_ne by auto. tauto. }
  assert (InE2 : forall x e, elt v e -> e <> me -> (In e (E' x) <-> In e (E x))).
  { intros x e Ee Ne. rewrite InE. destruct (Z.eq_dec x i) as [->|Nx]; tauto. }
  assert (InV : forall x j, In j (V' x) <-> (x = i /\ In j (V i) /\ var v j /\ 0 < vNv v j) \/ (x <> i /\ In j (V x))).
  { intros x j. unfold V'. destruct (Z.eq_dec x i) as [->|Nx].
    - rewrite lset_eq, rot_in, InKV. tauto.
    - rewrite lset_ne by auto. tauto. }
  assert (inbE : forall x e, elt v e -> e <> me -> inb e (E' x) = inb e (E x)).
  { intros x e Ee Ne. specialize (InE2 x e Ee Ne). destruct (inb_spec e (E' x)); destruct (inb_spec e (E x)); tauto. }
  assert (vb : forall x, 0 <= x < n -> varb v x = varb v' x).
  { intros x Hx. destruct (varb_spec n v x Hx) as [X|X]; destruct (varb_spec n v' x Hx) as [Y|Y]; auto; rewrite Vv in Y; tauto. }
  assert (Ws : forall P P', (forall x, P x = P' x) -> wsum n v' P' = wsum n v P).
  { intros P P' HP. apply wsum_ext.
    - intros x Hx. rewrite vb, HP; auto.
    - intros. rewrite ENv. auto. }
  assert (Pr : forall x, x <> i -> In x rest <-> In x (i :: rest)) by (intros x Nx; simpl; intuition congruence).
  assert (RL : forall y, In y L -> 0 <= y < n).
  { intros y Hy. unfold L in Hy. apply in_app_iff in Hy. destruct Hy as [[<-|Hy]|Hy]; auto.
    - rewrite rot_in, InK in Hy. destruct Hy as [_ Y]. apply Y.
    - rewrite rot_in, InKV in Hy. destruct Hy as [_ [Y _]]. apply Y. }
  assert (dlN : forall k, ~ In i (dl k)). { intros k X. apply (d_dl _ _ _ _ _ (i_d _ _ _ _ _ _ _ _ _ _ _ _ _ _ _ _ I0)) in X. lia. }
  constructor.
  - constructor.
    + constructor.
      * intros x Hx. unfold kind. rewrite ENv, EPe, EW. destruct (Z.eq_dec x i) as [->|Nx]; [|rewrite Elx by auto; apply G0; auto].
        left. rewrite Eli. destruct Vi as [_ [Y _]]. lia.
      * intros x Hx. rewrite ENv. apply G0; auto.
      * intros x Vx. apply Vv in Vx. rewrite ENv. apply G0; auto.
      * intros x Hx. rewrite EPe, ELn. intros Lx Nx. destruct (Z.eq_dec x i) as [->|Nxi]; [rewrite fup_eq; lia|]. rewrite fup_ne by auto. apply (g_pos _ _ _ _ _ _ _ _ G0); auto.
      * apply G0.
      * intros x Hx. apply G0. right; auto.
      * intros x Hx. apply Vv. apply G0. right; auto.
      * intros x Vx. apply Vv in Vx. unfold E', V'. destruct (Z.eq_dec x i) as [->|Nx].
        -- rewrite !lset_eq, Eli, zlen_cons, rot_len. auto.
        -- rewrite !lset_ne, Elx by auto. apply G0; auto.
      * intros x e Vx He. apply Vv in Vx. rewrite Ev, EW. apply InE in He. destruct He as [[-> [->|[_ He]]]|[Nx He]]; auto.
        rewrite Pr by auto. destruct (g_E _ _ _ _ _ _ _ _ G0 x e Vx He) as [X|[X1 [X2 [X3 X4]]]]; auto. right. split; auto. split; auto. split; auto.
        rewrite Elx; auto. intros ->. destruct Vi as [_ [_ Y]]. lia.
      * intros x j Vx Hj. apply Vv in Vx. rewrite Vv, ENv. apply InV in Hj. destruct Hj as [[-> [Hj [X _]]]|[Nx Hj]].
        -- destruct (g_V _ _ _ _ _ _ _ _ G0 i j Vi Hj) as [A1 [A2 _]]. auto.
        -- rewrite Pr by auto. apply G0; auto.
      * intros x j Vx Vj NL Hj. apply Vv in Vx, Vj. apply InV in Hj. apply InV. destruct Hj as [[-> [Hj [X Pj]]]|[Nx Hj]].
        -- right. destruct (g_V _ _ _ _ _ _ _ _ G0 i j Vi Hj) as [A1 _]. split; auto. apply (g_sym _ _ _ _ _ _ _ _ G0 i j); auto.
        -- pose proof (g_sym _ _ _ _ _ _ _ _ G0 x j Vx Vj NL Hj) as X. destruct (Z.eq_dec j i) as [->|Nj]; [|right; auto].
           left. split; auto. split; auto. split; auto. destruct (Z_lt_dec 0 (vNv v x)) as [Y|Y]; auto. exfalso.
           assert (vNv v x < 0) by (destruct Vx as [_ [Vx _]]; lia).
           destruct (g_neg _ _ _ _ _ _ _ _ G0 x ltac:(apply Vx) H) as [->|Z]; [exact (var_elt _ _ _ Vx Em)|tauto].
      * intros x j Vx Hx Nx Hj. apply Vv in Vx. apply InV in Hj. destruct Hj as [[-> [Hj [X Pj]]]|[Nxi Hj]].
        -- intros Y. pose proof (LmN j Y). lia.
        -- rewrite Pr in Nx by auto. apply (g_VLm _ _ _ _ _ _ _ _ G0 x); auto.
      * intros e x Ee Hx. apply Ev in Ee. rewrite Vv, ENv. rewrite lset_ne in Hx; [apply (g_L _ _ _ _ _ _ _ _ G0 e); auto|].
        intros ->. exact (var_elt _ _ _ Vi Ee).
      * intros x e Vx Ee Ne. apply Vv in Vx. apply Ev in Ee. rewrite InE2 by auto. rewrite lset_ne by (intros ->; exact (var_elt _ _ _ Vi Ee)).
        apply (g_EL _ _ _ _ _ _ _ _ G0); auto.
      * intros x Vx. apply Vv in Vx. rewrite InE. destruct (Z.eq_dec x i) as [->|Nx]; [tauto|].
        rewrite Pr by auto. rewrite <- (g_ELme _ _ _ _ _ _ _ _ G0 x Vx). tauto.
      * intros e Ee Ne. apply Ev in Ee. rewrite EDg, fup_ne, Ele by (intros ->; exact (var_elt _ _ _ Vi Ee)).
        rewrite (Ws (fun i => inb e (E i))); [apply (g_deg _ _ _ _ _ _ _ _ G0); auto|]. intros x. rewrite inbE; auto.
      * intros _. split; [apply Ev; auto|]. rewrite ENv. split; auto. rewrite lset_ne by auto. auto.
    + apply (TREE_frame n me nvp v me nvp v' rep); [apply I0|..].
      * intros x _. rewrite EPe. auto.
      * intros x Hx [Y| ->]; auto. left. rewrite Elx; auto. intros ->. destruct Vi as [_ [_ Z]]. lia.
      * intros x _. rewrite ENv. tauto.
      * intros x _ _. rewrite ENv. auto.
    + destruct (i_d _ _ _ _ _ _ _ _ _ _ _ _ _ _ _ _ I0). constructor; auto.
      * intros x k. rewrite d_dl, Vv, ENv, EDg. destruct (Z.eq_dec x i) as [->|Nx]; [split; lia|]. rewrite fup_ne by auto. tauto.
      * intros x Vx. apply Vv in Vx. rewrite EDg. destruct (Z.eq_dec x i) as [->|Nx]; [rewrite fup_eq; auto|]. rewrite fup_ne by auto. auto.
      * rewrite Emd. split; [tauto|]. intros x Vx Px. apply Vv in Vx. rewrite ENv in Px. rewrite EDg, fup_ne by (intros ->; lia). apply d_md; auto.
      * intros x k Hx. rewrite Vv, ENv. destruct (Z.eq_dec x i) as [->|Nx].
        -- split; auto. split; auto. split; auto. rewrite ELi. apply (hl_one _ _ _ _ HH h k i); [right; rewrite lset_eq; left; auto|right; auto].
        -- assert (Hx' : In x (hb k)).
           { destruct (Z.eq_dec k h) as [->|Nk]; [rewrite lset_eq in Hx; destruct Hx as [Hx|Hx]; [congruence|auto]|rewrite lset_ne in Hx; auto]. }
           destruct (d_hb x k Hx') as [X1 [X2 [X3 X4]]]. rewrite ELa; auto. intros k' X. apply d_dl in X. lia.
    + rewrite Epf. apply (Mem_put n v v'); auto. lia.
    + eapply Z.le_trans; [apply (used_le n v v')|apply I0].
      * intros x Hx Lx. rewrite EPe in Lx. split; auto. rewrite ELn. destruct (Z.eq_dec x i) as [->|Nx]; [rewrite fup_eq|rewrite fup_ne by auto]; lia.
      * intros x Hx Lx. eapply Mem_len; [apply I0|auto|auto].
    + intros x Hx. rewrite EW, Ele. apply I0; auto.
    + rewrite (Ws (fun _ => true)), Enel by auto. apply I0.
    + rewrite (Ws (fun i => inb i Lm)) by auto. apply I0.
    + rewrite Epf. apply I0.
  - rewrite Ewf. apply S.
  - intros x e Vx Hx He Ee Ne. apply Vv in Vx. apply Ev in Ee. rewrite EW. apply InE2 in He; auto. apply (s_t _ _ _ _ _ _ _ _ _ _ S x); auto.
  - intros e Ee Ne. apply Ev in Ee. rewrite EW. intros Lx.
    rewrite (Ws (fun i => inb e (E i) && negb (inb i Lm))); [apply S; auto|]. intros x. rewrite inbE; auto.
  - intros Ag x e Vx Hx Nx He Ne. apply Vv in Vx. rewrite EW. apply InE in He. destruct He as [[-> [He|He]]|[Nxi He]].
    + congruence.
    + apply HAg; auto. apply InK. auto.
    + rewrite Pr in Nx by auto. apply (s_agg _ _ _ _ _ _ _ _ _ _ S Ag x); auto.
  - intros x Hx. assert (Nx : x <> i) by congruence. unfold E', V'. rewrite !lset_ne, EW by auto. apply S. right; auto.
  - intros x Vx Hx Nx. apply Vv in Vx. destruct (Z.eq_dec x i) as [->|Nxi].
    + rewrite ELi, lset_eq. split; auto. left; auto.
    + rewrite Pr in Nx by auto. pose proof (g_Lneg _ _ _ _ _ _ _ _ G0 x Vx Hx).
      rewrite ELa; [|auto|intros k X; apply (d_dl _ _ _ _ _ (i_d _ _ _ _ _ _ _ _ _ _ _ _ _ _ _ _ I0)) in X; lia].
      destruct (s_last _ _ _ _ _ _ _ _ _ _ S x Vx Hx Nx) as [A1 A2]. split; auto.
      destruct (Z.eq_dec (vLast v x) h) as [Eq|Nq]; [rewrite Eq in *; rewrite lset_eq; right; auto|rewrite lset_ne; auto].
  - intros x k Hx Hr. destruct (Z.eq_dec x i) as [->|Nx]; [auto|]. apply (s_hb _ _ _ _ _ _ _ _ _ _ S x k); [|right; auto].
    destruct (Z.eq_dec k h) as [->|Nk]; [rewrite lset_eq in Hx; destruct Hx as [Hx|Hx]; [congruence|auto]|rewrite lset_ne in Hx; auto].
  - intros x Vx Hx Nx. apply Vv in Vx. unfold E'. destruct (Z.eq_dec x i) as [->|Nxi]; [rewrite lset_eq; eauto|]. rewrite lset_ne by auto.
    rewrite Pr in Nx by auto. apply S; auto.
  - auto.
Qed.


Lemma Vw_iw s v iw h iw' : Vw s (uIw v iw h) -> (forall q, 0 <= q < h -> iw' q = iw q) -> Vw s (uIw v iw' h).
Proof.
  intros [] H. constructor; vs; auto. destruct V_Iw as [L R]. split; auto. intros q Hq. rewrite H by auto. auto.
Qed.
Lemma Vw_elen s v e : Vw s v -> (forall i, 0 <= i < n -> e i = vElen v i) -> Vw s (uElen v e).
Proof.
  intros [] H. constructor; vs; auto. destruct V_Elen as [L R]. split; auto. intros q Hq. rewrite H by auto. auto.
Qed.

Definition Keep (v v' : vw) : Prop := vPe v' me = vPe v me /\ vpf v' = vpf v /\ vnel v <= vnel v'.

(** The elements of i: the dead ones go, the useless ones are absorbed. *)
Lemma scan2_elements_ok s v i rest nvp D C E V rep dl hb (Q : Z * Z * Z * ast -> Prop) :
  Vw s v -> S2 (i :: rest) nvp D v C E V rep dl hb ->
  (forall s' vv iw deg hash, S2 (i :: rest) nvp D vv C E V rep dl hb -> Vw s' (uIw vv iw (vhi vv)) -> vPe vv i = vPe v i -> Keep v vv ->
     let K := filter (keepE vv) (E i) in cells iw (vPe v i) K ->
     (forall q, ~ (vPe v i <= q < vPe v i + zlen K) -> iw q = vIw vv q) -> 0 <= deg ->
     (aggressive = true -> forall e, In e K -> f < vW vv e) -> Q (vPe v i + zlen K, deg, hash, s')) ->
  wp (scan2_elements aggressive me (vPe v i) (vPe v i + zlen (E i) - 1) s) Q.
Proof.
  intros Vs S HQ. unfold scan2_elements. set (p1 := vPe v i) in *.
  assert (NDE : NoDup (E i)). { pose proof (i_g _ _ _ _ _ _ _ _ _ _ _ _ _ _ _ _ (s_inv _ _ _ _ _ _ _ _ _ _ S)) as G. apply G. apply G. left; auto. }
  apply (wp_for_list (E i) (fun d r '(pn, deg, hash, s) => exists vv iw, S2 (i :: rest) nvp D vv C E V rep dl hb /\ Vw s (uIw vv iw (vhi vv)) /\
     vPe vv i = p1 /\ Keep v vv /\ let K := filter (keepE vv) d in cells iw p1 K /\ (forall q, ~ (p1 <= q < p1 + zlen K) -> iw q = vIw vv q) /\
     0 <= deg /\ (aggressive = true -> forall e, In e K -> f < vW vv e) /\ pn = p1 + zlen K)).
  - lia.
  - exists v, (vIw v). split; auto. split; [destruct v; exact Vs|]. split; auto. split; [split; [|split; [|lia]]; auto|]. cbv zeta. simpl. split; auto. split; auto. split; [lia|].
    split; [intros _ e []|]. change (zlen (@nil Z)) with 0. lia.
  - clear s Vs HQ S. clearbody p1. intros d e r [[[pn deg] hash] s] EE [vv [iw [S [Vs [EP [KP [Cl [Ag [Hd [HA ->]]]]]]]]]].
    pose proof (s_inv _ _ _ _ _ _ _ _ _ _ S) as I0. pose proof (i_g _ _ _ _ _ _ _ _ _ _ _ _ _ _ _ _ I0) as G0.
    pose proof (i_m _ _ _ _ _ _ _ _ _ _ _ _ _ _ _ _ I0) as M0.
    pose proof (g_pend _ _ _ _ _ _ _ _ G0 i (or_introl eq_refl)) as Vi. assert (Ri : 0 <= i < n) by apply Vi.
    destruct (kind_var _ _ _ (g_kind _ _ _ _ _ _ _ _ G0 i Ri) Vi) as [Li _]. rewrite EP in Li.
    destruct (g_var _ _ _ _ _ _ _ _ G0 i Vi) as [EC _].
    pose proof (m_cells _ _ _ _ M0 i Ri ltac:(lia)) as Ci. rewrite EC, EP, EE, <- app_assoc in Ci. apply cells_app in Ci. destruct Ci as [_ [Ce _]].
    pose proof (m_lim _ _ _ _ M0 i Ri ltac:(lia)) as Lim. rewrite (m_len _ _ _ _ M0 i Ri ltac:(lia)), EC, EE, EP, !zlen_app, zlen_cons in Lim.
    pose proof (m_pf _ _ _ _ M0). pose proof (m_hi _ _ _ _ M0).
    pose proof (zlen_nonneg d). pose proof (zlen_nonneg r). pose proof (zlen_nonneg (V i)).
    assert (He : In e (E i)) by (rewrite EE; apply in_app_iff; right; left; auto).
    rewrite EE in NDE. destruct (NoDup_mid _ _ _ NDE) as [Ned _].
    set (K := filter (keepE vv) d) in *. pose proof (zlen_filter (keepE vv) d) as ZK. fold K in ZK. pose proof (zlen_nonneg K) as ZK0.
    assert (Re : 0 <= e < n). { destruct (g_E _ _ _ _ _ _ _ _ G0 i e Vi He) as [X|X]; [apply X|tauto]. }
    ard. rewrite (Ag (p1 + zlen d)) by lia. rewrite Ce. ard. rewrite (V_wf _ _ _ _ Vs). vs. rewrite (s_wf _ _ _ _ _ _ _ _ _ _ S).
    destruct (Z.eqb_spec (vW vv e) 0) as [W0|W0]; simpl negb; cbv iota.
    + wok. exists vv, iw. split; auto. split; auto. split; auto. split; auto. cbv zeta. rewrite filter_app. cbn [filter]. fold K.
      replace (keepE vv e) with false by (unfold keepE; rewrite W0; auto). rewrite app_nil_r. auto.
    + assert (Ee : elt vv e). { destruct (g_E _ _ _ _ _ _ _ _ G0 i e Vi He) as [X|[_ [_ [_ X]]]]; [auto|congruence]. }
      assert (Ne : e <> me). { intros ->. apply (g_ELme _ _ _ _ _ _ _ _ G0 i Vi) in He. destruct He as [_ X]. apply X. left; auto. }
      assert (HiL : In i Lm) by (apply (g_pendL _ _ _ _ _ _ _ _ G0); left; auto).
      pose proof (s_t _ _ _ _ _ _ _ _ _ _ S i e Vi HiL He Ee Ne) as Wt.
      assert (KE : keepE vv e = true) by (unfold keepE; destruct (Z.eqb_spec (vW vv e) 0); [congruence|auto]).
      destruct (negb aggressive || (0 <? vW vv e - f)) eqn:Cond.
      * aw s2 V2. wok. eexists vv, _. split; [exact S|]. split; [exact V2|]. split; auto. split; auto. cbv zeta. rewrite filter_app. cbn [filter]. fold K. rewrite KE.
        rewrite zlen_app, zlen_cons. change (zlen (@nil Z)) with 0.
        split. { apply cells_app. split; [apply cells_fup; auto; lia|]. simpl. rewrite fup_eq. auto. }
        split. { intros q Hq. rewrite fup_ne by lia. apply Ag. lia. }
        split; [lia|]. split; [|lia]. intros A x Hx. apply in_app_iff in Hx. destruct Hx as [Hx|[<-|[]]]; auto. rewrite A in Cond. simpl in Cond.
        apply Z.ltb_lt in Cond. lia.
      * apply orb_false_iff in Cond. destruct Cond as [C1 C2]. apply negb_false_iff in C1. apply Z.ltb_ge in C2.
        aw s2 V2. aw s3 V3. wok. set (vv' := uW (uPe vv (fup (vPe vv) e (FLIP me))) (fup (vW vv) e 0)).
        assert (KK : filter (keepE vv') d = K).
        { apply filter_ext_in. intros x Hx. unfold keepE, vv'. vs. rewrite fup_ne; auto. congruence. }
        exists vv', iw. split; [apply (kill_S2 _ _ _ _ _ _ _ _ _ _ i e S); auto; [left; auto|lia]|]. split; [exact V3|].
        split. { unfold vv'. vs. rewrite fup_ne; auto. intros ->. exact (var_elt _ _ _ Vi Ee). }
        split. { destruct KP. split; [|auto]. unfold vv'. vs. rewrite fup_ne; auto. }
        cbv zeta. rewrite filter_app, KK. cbn [filter]. replace (keepE vv' e) with false by (unfold keepE, vv'; vs; rewrite fup_eq; auto).
        rewrite app_nil_r. split; auto. split; auto. split; auto. split; auto. intros A x Hx. unfold vv'. vs. rewrite fup_ne; auto.
        intros ->. unfold K in Hx. apply filter_In in Hx. tauto.
  - intros [[[pn deg] hash] s'] [vv [iw [S' [V' [EP [KP [Cl [Ag [Hd [HA ->]]]]]]]]]]. apply (HQ s' vv iw deg hash); auto.
Qed.

(** The variables of i. *)
Lemma scan2_variables_ok s vv iw el i rest nvp D C E V rep dl hb deg hash K (Q : Z * Z * Z * ast -> Prop) :
  S2 (i :: rest) nvp D vv C E V rep dl hb -> Vw s (uElen (uIw vv iw (vhi vv)) el) -> zlen K <= zlen (E i) ->
  cells iw (vPe vv i) K -> (forall q, ~ (vPe vv i <= q < vPe vv i + zlen K) -> iw q = vIw vv q) -> 0 <= deg ->
  (forall s' iw deg hash, Vw s' (uElen (uIw vv iw (vhi vv)) el) ->
     let KV := filter (keepV vv) (V i) in cells iw (vPe vv i) (K ++ KV) ->
     (forall q, ~ (vPe vv i <= q < vPe vv i + zlen K + zlen KV) -> iw q = vIw vv q) -> 0 <= deg -> Q (vPe vv i + zlen K + zlen KV, deg, hash, s')) ->
  wp (scan2_variables (vPe vv i + zlen (E i) - 1) (vPe vv i + vLen vv i) (vPe vv i + zlen K, deg, hash, s)) Q.
Proof.
  intros S Vs ZK Cl Ag Hd HQ. unfold scan2_variables. set (p1 := vPe vv i) in *.
  pose proof (s_inv _ _ _ _ _ _ _ _ _ _ S) as I0. pose proof (i_g _ _ _ _ _ _ _ _ _ _ _ _ _ _ _ _ I0) as G0.
  pose proof (i_m _ _ _ _ _ _ _ _ _ _ _ _ _ _ _ _ I0) as M0.
  pose proof (g_pend _ _ _ _ _ _ _ _ G0 i (or_introl eq_refl)) as Vi. assert (Ri : 0 <= i < n) by apply Vi.
  destruct (kind_var _ _ _ (g_kind _ _ _ _ _ _ _ _ G0 i Ri) Vi) as [Li _].
  destruct (g_var _ _ _ _ _ _ _ _ G0 i Vi) as [EC _].
  pose proof (m_cells _ _ _ _ M0 i Ri Li) as Ci. rewrite EC in Ci. apply cells_app in Ci. destruct Ci as [_ Cv]. fold p1 in Cv.
  pose proof (m_len _ _ _ _ M0 i Ri Li) as Ln. rewrite EC, zlen_app in Ln.
  pose proof (m_lim _ _ _ _ M0 i Ri Li) as Lim. fold p1 in Lim, Li.
  pose proof (m_pf _ _ _ _ M0). pose proof (m_hi _ _ _ _ M0). pose proof (zlen_nonneg K) as ZK0. pose proof (zlen_nonneg (E i)).
  apply (wp_for_list (V i) (fun d r '(pn, deg, hash, s) => exists iw, Vw s (uElen (uIw vv iw (vhi vv)) el) /\
     let KV := filter (keepV vv) d in cells iw p1 (K ++ KV) /\ (forall q, ~ (p1 <= q < p1 + zlen K + zlen KV) -> iw q = vIw vv q) /\
     0 <= deg /\ pn = p1 + zlen K + zlen KV)).
  - lia.
  - exists iw. split; auto. cbv zeta. simpl filter. rewrite app_nil_r. change (zlen (@nil Z)) with 0. rewrite Z.add_0_r. auto.
  - clear s iw Vs Ag Cl HQ Hd deg hash. intros d j r [[[pn deg] hash] s] EV [iw [Vs [Cl [Ag [Hd ->]]]]].
    set (KV := filter (keepV vv) d) in *. pose proof (zlen_filter (keepV vv) d) as ZKV. fold KV in ZKV. pose proof (zlen_nonneg KV) as ZKV0.
    rewrite EV in Cv, Ln. apply cells_app in Cv. destruct Cv as [_ [Cj _]]. rewrite zlen_app, zlen_cons in Ln.
    pose proof (zlen_nonneg d). pose proof (zlen_nonneg r).
    assert (Hj : In j (V i)) by (rewrite EV; apply in_app_iff; right; left; auto).
    destruct (g_V _ _ _ _ _ _ _ _ G0 i j Vi Hj) as [_ [Rj _]].
    replace (p1 + zlen (E i) - 1 + 1 + zlen d) with (p1 + zlen (E i) + zlen d) by lia.
    ard. rewrite (Ag (p1 + zlen (E i) + zlen d)) by lia. rewrite Cj. ard.
    rewrite filter_app. cbn [filter]. fold KV. change (keepV vv j) with (0 <? vNv vv j).
    destruct (Z.ltb_spec 0 (vNv vv j)) as [L|L].
    + aw s2 V2. wok. eexists. split; [exact V2|]. cbv zeta. rewrite app_assoc, zlen_app, zlen_cons. change (zlen (@nil Z)) with 0.
      split. { apply cells_app. split; [apply cells_fup; auto; rewrite zlen_app; lia|]. simpl. rewrite zlen_app, Z.add_assoc, fup_eq. auto. }
      split. { intros q Hq. rewrite fup_ne by lia. apply Ag. lia. }
      lia.
    + wok. exists iw. split; auto. cbv zeta. rewrite app_nil_r. auto.
  - intros [[[pn deg'] hash'] s'] [iw' [V' [C' [A' [D' ->]]]]]. eapply HQ; eauto.
Qed.

(** Lines 1242-1248: me goes to the front, the first element and the first variable to the back. *)
Lemma rotate_cells iw p K KV p3 pn : cells iw p (K ++ KV) -> ~ (K = [] /\ KV = []) ->
  p3 = p + zlen K -> pn = p3 + zlen KV ->
  let iw1 := fup iw pn (iw p3) in let iw2 := fup iw1 p3 (iw1 p) in let iw3 := fup iw2 p me in
  cells iw3 p ((me :: rot K) ++ rot KV).
Proof.
  intros Cl NE E3 En iw1 iw2 iw3. unfold rot.
  pose proof (zlen_nonneg K) as Z1. pose proof (zlen_nonneg KV) as Z2.
  apply cells_app in Cl. destruct Cl as [C1 C2]. rewrite <- E3 in C2.
  assert (Me : iw3 p = me) by apply fup_eq.
  assert (Old : forall q, q <> p -> q <> p3 -> q <> pn -> iw3 q = iw q).
  { intros q N1 N2 N3. unfold iw3, iw2, iw1. rewrite !fup_ne by auto. auto. }
  destruct K as [|x s]; destruct KV as [|y t]; [tauto| | |]; cbn [app]; rewrite ?zlen_cons in *; change (zlen (@nil Z)) with 0 in *.
  - assert (p3 = p) by lia. simpl. split; auto. destruct C2 as [Cy Ct]. pose proof (zlen_nonneg t). apply cells_app.
    split.
    + apply (cells_ext iw); [|rewrite <- H; auto]. intros q Hq. apply Old; lia.
    + simpl. split; auto. replace (p + 1 + zlen t) with pn by lia. unfold iw3, iw2. rewrite !fup_ne by lia.
      unfold iw1. rewrite fup_eq. auto.
  - simpl. split; auto. destruct C1 as [Cx Cs]. pose proof (zlen_nonneg s). rewrite app_nil_r. apply cells_app. split.
    + apply (cells_ext iw); auto. intros q Hq. apply Old; lia.
    + simpl. split; auto. replace (p + 1 + zlen s) with p3 by lia. unfold iw3. rewrite fup_ne by lia.
      unfold iw2. rewrite fup_eq. unfold iw1. rewrite fup_ne by lia. auto.
  - simpl. split; auto. destruct C1 as [Cx Cs]. destruct C2 as [Cy Ct]. pose proof (zlen_nonneg s). pose proof (zlen_nonneg t).
    rewrite <- app_assoc. apply cells_app. split.
    + apply (cells_ext iw); auto. intros q Hq. apply Old; lia.
    + simpl. replace (p + 1 + zlen s) with p3 by lia. split.
      * unfold iw3. rewrite fup_ne by lia. unfold iw2. rewrite fup_eq. unfold iw1. rewrite fup_ne by lia. auto.
      * apply cells_app. split.
        -- apply (cells_ext iw); auto. intros q Hq. apply Old; lia.
        -- simpl. split; auto. replace (p3 + 1 + zlen t) with pn by lia. unfold iw3, iw2. rewrite !fup_ne by lia.
           unfold iw1. rewrite fup_eq. auto.
Qed.


Lemma scan2_one_ok s v i rest nvp D C E V rep dl hb (Q : Z * Z * ast -> Prop) :
  Vw s v -> S2 (i :: rest) nvp D v C E V rep dl hb ->
  (forall s' v' nvp' D' C' E' V' rep' hb', Vw s' v' -> S2 rest nvp' D' v' C' E' V' rep' dl hb' -> Keep v v' -> Q (D', nvp', s')) ->
  wp (scan2_one n aggressive me i (D, nvp, s)) Q.
Proof.
  intros Vs S HQ. unfold scan2_one.
  pose proof (s_inv _ _ _ _ _ _ _ _ _ _ S) as I0. pose proof (i_g _ _ _ _ _ _ _ _ _ _ _ _ _ _ _ _ I0) as G0.
  pose proof (g_pend _ _ _ _ _ _ _ _ G0 i (or_introl eq_refl)) as Vi. assert (Ri : 0 <= i < n) by apply Vi.
  destruct (g_var _ _ _ _ _ _ _ _ G0 i Vi) as [_ [El _]].
  ard. ard. rewrite El. cbv zeta. wb. apply (scan2_elements_ok s v i rest nvp D C E V rep dl hb); auto.
  clear s Vs. intros s vv iw deg hash Sv Vs EP KP K Cl Ag Hd HA. rewrite <- EP in *.
  clear S I0 G0 Vi El. rename Sv into S.
  pose proof (s_inv _ _ _ _ _ _ _ _ _ _ S) as I0. pose proof (i_g _ _ _ _ _ _ _ _ _ _ _ _ _ _ _ _ I0) as G0.
  pose proof (i_m _ _ _ _ _ _ _ _ _ _ _ _ _ _ _ _ I0) as M0. pose proof (i_d _ _ _ _ _ _ _ _ _ _ _ _ _ _ _ _ I0) as D0.
  pose proof (g_pend _ _ _ _ _ _ _ _ G0 i (or_introl eq_refl)) as Vi.
  assert (HiL : In i Lm) by (apply (g_pendL _ _ _ _ _ _ _ _ G0); left; auto).
  pose proof (g_Lneg _ _ _ _ _ _ _ _ G0 i Vi HiL) as Ni.
  destruct (kind_var _ _ _ (g_kind _ _ _ _ _ _ _ _ G0 i Ri) Vi) as [Li _].
  destruct (g_var _ _ _ _ _ _ _ _ G0 i Vi) as [EC _].
  destruct (g_me _ _ _ _ _ _ _ _ G0 Hm) as [Em _].
  assert (Nim : i <> me) by (intros ->; exact (var_elt _ _ _ Vi Em)).
  pose proof (m_len _ _ _ _ M0 i Ri Li) as Ln. rewrite EC, zlen_app in Ln.
  pose proof (m_lim _ _ _ _ M0 i Ri Li) as Lim.
  pose proof (m_pf _ _ _ _ M0). pose proof (m_hi _ _ _ _ M0).
  pose proof (keep_len _ _ _ _ _ _ _ _ _ _ _ S) as KL. fold K in KL.
  pose proof (zlen_filter (keepE vv) (E i)) as ZK. fold K in ZK. pose proof (zlen_nonneg K).
  aw s1 V1. ard. wb.
  replace (vPe vv i + zlen K - vPe vv i + 1) with (zlen K + 1) in * by lia.
  apply (scan2_variables_ok s1 vv iw (fup (vElen vv) i (zlen K + 1)) i rest nvp D C E V rep dl hb deg hash K); auto.
  clear s s1 Vs V1 hash deg Hd iw Cl Ag. intros s iw deg hash Vs KV Cl Ag Hd. fold KV in KL.
  pose proof (zlen_nonneg KV). set (p1 := vPe vv i) in *.
  ard. rewrite fup_eq.
  destruct ((zlen K + 1 =? 1) && (p1 + zlen K =? p1 + zlen K + zlen KV)) eqn:Cond.
  - apply andb_true_iff in Cond. destruct Cond as [C1 C2]. apply Z.eqb_eq in C1, C2.
    assert (K0 : K = []) by (clear - C1; revert C1; generalize K; intros [|? k] C1; auto; rewrite zlen_cons in C1; pose proof (zlen_nonneg k); exfalso; lia).
    assert (V1 : Vw s (uElen vv (fup (vElen vv) i (zlen K + 1)))).
    { assert (W : Vw s (uIw (uElen vv (fup (vElen vv) i (zlen K + 1))) (vIw vv) (vhi vv))).
      { apply (Vw_iw s (uElen vv (fup (vElen vv) i (zlen K + 1))) iw); [exact Vs|]. intros q Hq. symmetry. apply Ag. lia. }
      destruct vv; exact W. }
    aw s1 V2. ard. rewrite (V_nel _ _ _ _ V2). vs. pose proof (Snel _ _ _ _ (vnel vv + - vNv vv i) V2) as V3. clear V2 V1 Vs. aw s2 V4. aw s3 V5. wok.
    destruct (mass_S2 i rest nvp D vv C E V rep dl hb S) as [rep' S'].
    { intros e He. destruct (Z.eq_dec (vW vv e) 0) as [X|X]; auto. exfalso. assert (Y : In e K); [|rewrite K0 in Y; destruct Y].
      apply filter_In. split; auto. unfold keepE. destruct (Z.eqb_spec (vW vv e) 0); [congruence|auto]. }
    replace (vnel vv + - vNv vv i) with (vnel vv - vNv vv i) in V5 by lia.
    replace (D - - vNv vv i) with (D + vNv vv i) by lia. replace (nvp + - vNv vv i) with (nvp - vNv vv i) by lia.
    eapply HQ; [|exact S'|].
    + eapply (Vw_elen s3 _ (fup (vElen vv) i EMPTY)) in V5; [exact V5|]. intros x Hx. vs. unfold fup. destruct (x =? i); auto.
    + destruct KP as [KP1 [KP2 KP3]]. split; [|split; [auto|vs; lia]]. vs. rewrite fup_ne; auto.
  - assert (NE : ~ (K = [] /\ KV = [])).
    { intros [X Y]. assert (zlen K = 0) by (rewrite X; auto). assert (zlen KV = 0) by (rewrite Y; auto).
      apply andb_false_iff in Cond. rewrite !Z.eqb_neq in Cond. lia. }
    ard. aw s1 V1. 
    assert (Hhi : vPe vv i + vLen vv i <= vhi vv) by lia. fold p1 in Hhi, Li, Lim.
    ard. aw s2 V2. ard. aw s3 V3. aw s4 V4.
    pose proof (rotate_cells iw p1 K KV (p1 + zlen K) (p1 + zlen K + zlen KV) Cl NE eq_refl eq_refl) as RC. cbv zeta in RC.
    set (iw3 := fup (fup (fup iw (p1 + zlen K + zlen KV) (iw (p1 + zlen K))) (p1 + zlen K) (fup iw (p1 + zlen K + zlen KV) (iw (p1 + zlen K)) p1)) p1 me) in *.
    aw s6 V6. clear Vs V1 V2 V3 V4 s s1 s2 s3 s4.
    set (h := hash mod n). assert (Hh : 0 <= h < n) by (apply Z.mod_pos_bound; lia).
    set (dg := Z.min (vDeg vv i) deg) in *.
    assert (Hdg : 0 <= dg < n). { pose proof (d_rng _ _ _ _ _ D0 i Vi). unfold dg. lia. }
    replace (p1 + zlen K + zlen KV - p1 + 1) with (zlen ((me :: rot K) ++ rot KV)) in V6 by (rewrite zlen_app, zlen_cons, !rot_len; lia).
    pose proof (d_hl _ _ _ _ _ D0) as H0'.
    assert (Fr : forall d', ~ In i (dl d') /\ ~ In i (hb d')).
    { intros d'. split; intros X; [apply (d_dl _ _ _ _ _ D0) in X; lia|]. apply (s_hb _ _ _ _ _ _ _ _ _ _ S i d' X). left; auto. }
    assert (Fin : forall s' la hd', Vw s' (uHead (uLast (uNext (uLen (uIw (uDeg (uElen (uIw vv iw (vhi vv)) (fup (vElen vv) i (zlen K + 1))) (fup (vDeg vv) i dg)) iw3 (vhi vv))
        (fup (vLen vv) i (zlen ((me :: rot K) ++ rot KV)))) (fup (vNext vv) i (hdE (hb h)))) la) hd') ->
      (dl h = [] -> hd' h = FLIP i) -> (dl h <> [] -> hd' h = vHead vv h) -> (forall d', d' <> h -> hd' d' = vHead vv d') ->
      (forall x r, dl h = x :: r -> la x = i) -> (forall x, x <> i -> dl h = [] \/ x <> hdE (dl h) -> la x = vLast vv x) ->
      wp (s <- sLast s' i h ;; Ok (D, nvp, s)) Q).
    { intros s' la hd' V7 A1 A2 A3 A4 A5. clear V6. 
      assert (Ndi : forall k, ~ In i (dl k)) by (intros k; apply Fr).
      aw s7 V8. wok. eapply HQ; [exact V8| |exact KP].
      apply (keep_S2 i rest nvp D vv _ C E V rep dl hb h dg); auto.
      - fold K KV. fold p1. intros q Hq. vs. rewrite zlen_app, zlen_cons, !rot_len in Hq. unfold iw3. rewrite !fup_ne by lia. apply Ag. lia.
      - apply (HL_hash n vv); auto; vs.
        + apply fup_eq.
        + intros x Nx. apply fup_ne; auto.
        + intros x r X. rewrite fup_ne; [eapply A4; eauto|]. intros ->. apply (Ndi h). rewrite X. left; auto.
        + intros x N1 N2. rewrite fup_ne by auto. apply A5; auto.
      - vs. apply fup_eq.
      - intros x Nx Hx. vs. rewrite fup_ne by auto. destruct (dl h) as [|y r] eqn:Eh.
        + apply A5; auto.
        + apply A5; auto. right. simpl. intros ->. apply (Hx h). rewrite Eh. left; auto. }
    ard. rewrite (hl_head _ _ _ _ H0' h Hh).
    destruct (dl h) as [|y r] eqn:Eh.
    + destruct (Z.leb_spec (FLIP (hdE (hb h))) EMPTY) as [X|X].
      2: { exfalso. destruct (hdE_cases n (hb h)) as [[_ Z]|[x [r [_ [Z Z2]]]]]; [intros x Hx; apply (hl_rng _ _ _ _ H0' h x); auto| |];
           rewrite Z, FLIP_val, EMPTY_val in X; lia. }
      rewrite FLIP_FLIP. wb. aw s7 V7. awl s8 V8. apply (Fin s8 (vLast vv) (fup (vHead vv) h (FLIP i)) V8).
      * intros _. apply fup_eq.
      * congruence.
      * intros d' Nd. apply fup_ne; auto.
      * intros x r X0. congruence.
      * auto.
    + assert (Hy : 0 <= y < n). { apply (hl_rng _ _ _ _ H0' h). left. rewrite Eh. left; auto. }
      destruct (Z.leb_spec y EMPTY) as [X|X]; [rewrite EMPTY_val in X; lia|].
      wb. ard. pose proof (hl_dl _ _ _ _ H0' h Hh) as Ch. rewrite Eh in Ch. destruct Ch as [Ly _]. rewrite Ly.
      aw s7 V7. awl s8 V8. apply (Fin s8 (fup (vLast vv) y i) (vHead vv) V8); auto.
      * congruence.
      * intros x r' X0. assert (x = y) by congruence. subst x. apply fup_eq.
      * intros x N1 [N2|N2]; [congruence|]. apply fup_ne. auto.
Qed.


Lemma scan2_ok s v nvp D C E V rep dl hb (Q : Z * Z * ast -> Prop) :
  Vw s v -> S2 Lm nvp D v C E V rep dl hb ->
  (forall s' v' nvp' D' C' E' V' rep' hb', Vw s' v' -> S2 [] nvp' D' v' C' E' V' rep' dl hb' -> Keep v v' -> Q (D', nvp', s')) ->
  wp (scan2 n aggressive me (vPe v me) (vPe v me + zlen Lm - 1) (D, nvp, s)) Q.
Proof.
  intros Vs S HQ. unfold scan2.
  apply (wp_for_list Lm (fun d r '(D, nvp, s) => exists v' C' E' V' rep' hb', Vw s v' /\ S2 r nvp D v' C' E' V' rep' dl hb' /\ Keep v v')).
  - lia.
  - exists v, C, E, V, rep, hb. split; auto. split; auto. split; [|split; [|lia]]; auto.
  - clear s Vs S C E V rep hb D nvp HQ. intros d i r [[D nvp] s] EL [v' [C [E [V [rep [hb [Vs [S KP]]]]]]]].
    pose proof (s_inv _ _ _ _ _ _ _ _ _ _ S) as I0. pose proof (i_g _ _ _ _ _ _ _ _ _ _ _ _ _ _ _ _ I0) as G0.
    pose proof (i_m _ _ _ _ _ _ _ _ _ _ _ _ _ _ _ _ I0) as M0.
    destruct (g_me _ _ _ _ _ _ _ _ G0 Hm) as [Em [ECm _]]. assert (Rm : 0 <= me < n) by apply Em.
    destruct (kind_elt _ _ _ (g_kind _ _ _ _ _ _ _ _ G0 me Rm) Em) as [Lme _].
    pose proof (m_cells _ _ _ _ M0 me Rm Lme) as Cm. rewrite ECm in Cm. rewrite EL in Cm at 1. apply cells_app in Cm. destruct Cm as [_ [Ci _]].
    pose proof (m_lim _ _ _ _ M0 me Rm Lme) as Lim. rewrite (m_len _ _ _ _ M0 me Rm Lme), ECm in Lim.
    assert (ZL : zlen Lm = zlen d + (1 + zlen r)) by (rewrite EL at 1; rewrite zlen_app, zlen_cons; lia). 
    pose proof (zlen_nonneg d). pose proof (zlen_nonneg r). pose proof (m_pf _ _ _ _ M0). pose proof (m_hi _ _ _ _ M0).
    destruct KP as [KP1 [KP2 KP3]]. rewrite <- KP1. ard. rewrite Ci.
    apply (scan2_one_ok s v' i r nvp D C E V rep dl hb); auto. intros s' v2 nvp' D' C' E' V' rep' hb' V2 S' [K1 [K2 K3]].
    exists v2, C', E', V', rep', hb'. split; auto. split; auto. split; [congruence|]. split; [congruence|lia].
  - intros [[D' nvp'] s'] [v' [C' [E' [V' [rep' [hb' [Vw' [S' KP]]]]]]]]. eapply HQ; eauto.
Qed.

(** The state after the first scan. *)
Lemma S2_entry v C E V rep dl nvp D w : INV n iwlen pf0 me Lm Lm nvp D f v C E V rep dl (fun _ => []) -> vwf v = f ->
  (forall i, In i Lm -> In me (V i) \/ exists e, In e (E i) /\ vW v e = 0) ->
  (forall x, 0 <= x < n -> w x = sc n v E f Lm x) ->
  S2 Lm nvp D (uW v w) C E V rep dl (fun _ => []).
Proof.
  intros I0 Hwf Dr Hw. pose proof (i_g _ _ _ _ _ _ _ _ _ _ _ _ _ _ _ _ I0) as G0.
  assert (Z0 : forall x, 0 <= x < n -> (w x = 0 <-> vW v x = 0)).
  { intros x Hx. rewrite Hw by auto. eapply sc_zero; eauto. }
  assert (Bd : forall x, 0 <= x < n -> 0 <= w x < f + Z.max 0 (vle v)).
  { intros x Hx. rewrite Hw by auto. eapply sc_bound; eauto. }
  assert (Vv : forall x, var (uW v w) x <-> var v x) by reflexivity.
  assert (Ev : forall x, elt (uW v w) x <-> elt v x).
  { intros x. unfold elt. vs. split; intros [A [B X]]; split; auto; split; auto; intros Y; apply X, Z0; auto. }
  constructor.
  - constructor.
    + constructor; try apply G0.
      * intros x Hx. pose proof (g_kind _ _ _ _ _ _ _ _ G0 x Hx) as K. unfold kind in *. vs. pose proof (Z0 x Hx). pose proof (Bd x Hx). lia.
      * intros i e Vi He. rewrite Ev. destruct (g_E _ _ _ _ _ _ _ _ G0 i e Vi He) as [X|[X1 [X2 [X3 X4]]]]; auto. right.
        split; auto. split; auto. split; auto. vs. apply Z0; auto.
      * intros e i Ee. apply Ev in Ee. apply (g_L _ _ _ _ _ _ _ _ G0); auto.
      * intros i e Vi Ee. apply Ev in Ee. apply (g_EL _ _ _ _ _ _ _ _ G0); auto.
      * intros e Ee. apply Ev in Ee. apply (g_deg _ _ _ _ _ _ _ _ G0); auto.
      * intros Hm'. rewrite Ev. apply G0; auto.
    + eapply TREE_frame; [apply I0|vs; auto..]. tauto.
    + destruct (i_d _ _ _ _ _ _ _ _ _ _ _ _ _ _ _ _ I0). constructor; auto. destruct d_hl. constructor; auto.
    + eapply Mem_die; [apply I0|vs; auto..].
    + apply I0.
    + vs. auto.
    + apply I0.
    + apply I0.
    + apply I0.
  - auto.
  - intros i e Vi Hi He Ee _. apply Ev in Ee. vs. rewrite Hw by apply Ee. apply (sc_touched n v E Lm f e i); auto.
  - intros e Ee Ne. apply Ev in Ee. vs. rewrite Hw by apply Ee. intros L. eapply sc_value in L; eauto.
  - intros _ i e Vi Hi Ni. tauto.
  - intros i Hi. destruct (Dr i Hi) as [X|[e [X Y]]]; auto. right. exists e. split; auto. vs. apply Z0; auto.
    destruct (g_E _ _ _ _ _ _ _ _ G0 i e) as [Z|Z]; auto; [apply (g_pend _ _ _ _ _ _ _ _ G0 i Hi)|apply Z|apply Z].
  - intros i _ Hi Ni. tauto.
  - intros x d [].
  - intros i _ Hi Ni. tauto.
  - apply G0.
Qed.

End Scan2.
