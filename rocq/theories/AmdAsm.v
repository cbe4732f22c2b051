(** The new element is in place: the invariant at line 1013 of src/amd_2.c. *)
From Coq Require Import ZArith List Lia Bool.
From RecordUpdate Require Import RecordUpdate.
From Verif Require Import Res Lists MAmd AmdBase AmdView AmdLists AmdGc AmdInv AmdBuild.
Import ListNotations.
Open Scope Z_scope.
Open Scope res_scope.

Lemma sumz_inb n h l : NoDup l -> (forall x, In x l -> 0 <= x < n) ->
  sumz (fun i => if inb i l then h i else 0) (zr 0 n) = sumz h l.
Proof.
  intros ND H. induction l as [|x l IH].
  - simpl. apply sumz_zero. auto.
  - inversion ND; subst. cbn [sumz]. rewrite <- IH; auto; [|intros; apply H; right; auto].
    rewrite (sumz_ext (fun i => if inb i (x :: l) then h i else 0) (fup (fun i => if inb i l then h i else 0) x (h x))).
    + rewrite sumz_fup; [|apply NoDup_zr|apply in_zr; apply H; left; auto]. rewrite (inb_out x l) by auto. lia.
    + intros i Hi. unfold fup. cbn [inb existsb]. destruct (Z.eqb_spec i x) as [->|Ne]; simpl; auto.
Qed.

(** Some elements get the new element as parent. *)
Lemma TREE_adopts n me nvp v me' nvp' v' rep (D : list Z) : TREE n me nvp v rep -> 0 <= me' < n -> -1 <= vPe v' me' -> ~ In me' D -> vNv v' me' <> 0 ->
  (forall i, In i D -> vNv v i <> 0 /\ vPe v' i = FLIP me') ->
  (forall i, 0 <= i < n -> ~ In i D -> vPe v' i = vPe v i \/ (-1 <= vPe v i /\ -1 <= vPe v' i)) ->
  (forall i, 0 <= i < n -> vElen v i < -1 \/ i = me -> vElen v' i < -1 \/ i = me') ->
  (forall i, 0 <= i < n -> (vNv v' i = 0 <-> vNv v i = 0)) ->
  (forall i, 0 <= i < n -> vNv v i <> 0 -> (if i =? me' then nvp' else Z.abs (vNv v' i)) = (if i =? me then nvp else Z.abs (vNv v i))) ->
  TREE n me' nvp' v' rep.
Proof.
  intros T Hm Pm Nm Nvm HD Epe Eel Ez Es. constructor.
  - intros i Hi. pose proof (t_root _ _ _ _ _ T i Hi) as R.
    assert (RD : forall i, 0 <= i < n -> In i D -> Rooted n (vPe v') i).
    { intros j Hj Dj. destruct (HD j Dj) as [_ X]. apply R_step; auto; rewrite X; [rewrite FLIP_val; lia|]. rewrite FLIP_FLIP. apply R_root; auto. }
    induction R as [i Hi' L|i Hi' L R IH]; (destruct (in_dec Z.eq_dec i D) as [Di|Di]; [auto|]).
    + apply R_root; auto. destruct (Epe i Hi Di); lia.
    + destruct (Epe i Hi Di) as [X|X]; [|lia]. apply R_step; auto; rewrite X; auto. apply IH. inversion R; auto.
  - intros i Hi Ni Li. destruct (in_dec Z.eq_dec i D) as [Di|Di].
    + destruct (HD i Di) as [_ X]. rewrite X, FLIP_FLIP. auto.
    + destruct (Epe i Hi Di) as [E|E]; [|lia]. rewrite E in *. rewrite Ez in Ni by auto.
      destruct (t_par _ _ _ _ _ T i Hi Ni Li) as [A [B F]]. split; auto. split; [rewrite Ez; auto|].
      destruct (Eel _ A) as [X|X]; auto. tauto.
  - apply T.
  - intros i Hi H. apply (t_self _ _ _ _ _ T i Hi). destruct (in_dec Z.eq_dec i D) as [Di|Di]; [left; apply HD; auto|].
    rewrite Ez in H by auto. destruct H as [H|H]; auto. destruct (Epe i Hi Di) as [E|E]; [rewrite <- E; auto|tauto].
  - intros i Hi Z0 L. rewrite Ez in Z0 by auto. assert (Di : ~ In i D) by (intros X; apply HD in X; tauto).
    destruct (Epe i Hi Di) as [E|E]; [|lia]. rewrite E in *. apply T; auto.
  - intros r Hr Nr. rewrite Ez in Nr by auto. rewrite Es by auto. apply T; auto.
  - intros i Hi Z0 L. rewrite Ez in Z0 by auto. assert (Di : ~ In i D) by (intros X; apply HD in X; tauto).
    destruct (Epe i Hi Di) as [E|E]; [|lia]. rewrite E in *. rewrite Ez by (apply T; auto). apply T; auto.
Qed.

Section Asm.
Variables (n iwlen pf0 : Z).
Notation Vw := (Vw n iwlen).
Notation Mem := (Mem n).
Notation var := (var n).
Notation elt := (elt n).
Variables (v0 : vw) (C E V : Z -> list Z) (rep : Z -> Z) (dl : Z -> list Z) (me : Z).
Hypothesis I0 : INV n iwlen pf0 (-1) [] [] 0 0 (vwf v0) v0 C E V rep dl (fun _ => []).
Hypothesis Hme : var v0 me.
Let G0 := i_g _ _ _ _ _ _ _ _ _ _ _ _ _ _ _ _ I0.
Let M0 := i_m _ _ _ _ _ _ _ _ _ _ _ _ _ _ _ _ I0.

Variables (Lm : list Z) (v v' : vw) (pme1 f D : Z).
Hypothesis B : BR n iwlen v0 C E V me Lm v pme1.
Hypothesis ED : D = sumz (vNv v0) Lm.
Hypothesis EPe : vPe v' = fup (vPe v) me pme1.
Hypothesis ELen : vLen v' = fup (vLen v) me (zlen Lm).
Hypothesis EElen : vElen v' = fup (vElen v) me (FLIP (vNv v0 me + D)).
Hypothesis EDeg : vDeg v' = fup (vDeg v) me D.
Hypothesis EW : forall i, 0 <= i < n -> 0 <= vW v' i < f /\ (vW v' i = 0 <-> vW v i = 0).
Hypothesis ENv : vNv v' = vNv v.
Hypothesis ENext : vNext v' = vNext v.
Hypothesis ELast : vLast v' = vLast v.
Hypothesis EHead : vHead v' = vHead v.
Hypothesis EIw : vIw v' = vIw v.
Hypothesis Epf : vpf v' = vpf v.
Hypothesis Ehi : vhi v' = vhi v.
Hypothesis Enel : vnel v' = vnel v.
Hypothesis Emd : vmd v' = vmd v.
Hypothesis Ele : vle v' = vle v.

Let GSv := br_gs _ _ _ _ _ _ _ _ _ _ B.

Lemma am_rng : 0 <= me < n. Proof. apply Hme. Qed.
Lemma am_Nv x : vNv v' x = if (x =? me) || inb x Lm then - vNv v0 x else vNv v0 x.
Proof. rewrite ENv. apply (gs_nv _ _ _ _ _ GSv). Qed.
Lemma am_NvA x : 0 <= x < n -> Z.abs (vNv v' x) = vNv v0 x.
Proof. intros Hx. pose proof (nv0_nonneg n iwlen pf0 v0 C E V rep dl I0 x Hx). rewrite am_Nv. destruct (_ || _); lia. Qed.
Lemma am_Nv0 x : vNv v' x = 0 <-> vNv v0 x = 0.
Proof. rewrite am_Nv. destruct (_ || _); lia. Qed.
Lemma am_Elen x : x <> me -> vElen v' x = vElen v0 x.
Proof. intros Hx. rewrite EElen, fup_ne by auto. rewrite (gs_elen _ _ _ _ _ GSv). auto. Qed.
Lemma am_D : 0 <= D.
Proof. rewrite ED. apply sumz_nonneg. intros x Hx. apply (gs_Lm _ _ _ _ _ GSv) in Hx. destruct Hx as [[Hx _] _]. eapply nv0_nonneg; eauto. Qed.
Lemma am_nvme : 0 < vNv v0 me.
Proof. eapply nv0_pos; eauto. Qed.
Lemma am_Elenme : vElen v' me < -1.
Proof. rewrite EElen, fup_eq, FLIP_val. pose proof am_D. pose proof am_nvme. lia. Qed.

Lemma am_var x : var v' x <-> var v0 x /\ x <> me.
Proof.
  unfold var. rewrite am_Nv0. destruct (Z.eq_dec x me) as [->|Ne].
  - pose proof am_Elenme. lia.
  - rewrite am_Elen by auto. tauto.
Qed.
Lemma am_Eme e : In e (E me) -> elt v0 e /\ e <> me.
Proof. eapply Eme_ok; eauto. Qed.
Lemma am_W0 x : 0 <= x < n -> vW v' x = 0 <-> (In x (E me) \/ vW v0 x = 0).
Proof.
  intros Hx. destruct (EW x Hx) as [_ X]. rewrite X, (br_w _ _ _ _ _ _ _ _ _ _ B).
  destruct (inb_spec x (E me)); tauto.
Qed.
Lemma am_elt e : elt v' e <-> e = me \/ (elt v0 e /\ ~ In e (E me)).
Proof.
  split.
  - intros [He [L W]]. destruct (Z.eq_dec e me) as [->|Ne]; auto. right. rewrite am_W0, am_Elen in * by auto. unfold elt. tauto.
  - intros [->|[He Ni]].
    + split; [apply am_rng|]. split; [apply am_Elenme|]. rewrite am_W0 by apply am_rng.
      intros [X|X]; [apply am_Eme in X; tauto|]. pose proof (kind_var _ _ _ (g_kind _ _ _ _ _ _ _ _ G0 me am_rng) Hme). lia.
    + destruct He as [He [L W]]. assert (e <> me). { intros ->. destruct Hme as [_ [_ X]]. lia. }
      split; auto. rewrite am_W0, am_Elen by auto. tauto.
Qed.
Lemma am_Pe x : 0 <= x < n -> x <> me -> ~ In x (E me) -> (0 <= vPe v0 x -> 0 <= vPe v' x) /\ (vPe v0 x < 0 -> vPe v' x = vPe v0 x) /\ vLen v' x = vLen v0 x.
Proof. intros Hx Ne Ni. rewrite EPe, ELen, !fup_ne by auto. apply (br_pe _ _ _ _ _ _ _ _ _ _ B); auto. Qed.
Lemma am_Pedead x : In x (E me) -> vPe v' x = FLIP me.
Proof. intros Hx. rewrite EPe, fup_ne by (apply am_Eme; auto). apply (br_dead _ _ _ _ _ _ _ _ _ _ B); auto. Qed.
Lemma am_Peme : vPe v' me = pme1 /\ 0 <= pme1.
Proof. rewrite EPe, fup_eq. split; auto. exact (br_p _ _ _ _ _ _ _ _ _ _ B). Qed.
Lemma am_Lm x : In x Lm -> var v0 x /\ x <> me.
Proof. apply (gs_Lm _ _ _ _ _ GSv). Qed.
Lemma am_C x : x <> me -> lset C me Lm x = C x.
Proof. apply lset_ne. Qed.

Lemma am_drop i : In i Lm -> In me (V i) \/ exists e, In e (E i) /\ vW v' e = 0.
Proof.
  intros Hi. apply (br_in _ _ _ _ _ _ _ _ _ _ B) in Hi. destruct Hi as [Vi [Ni [H|[e [He Hi]]]]].
  - left. apply (g_sym _ _ _ _ _ _ _ _ G0 me i); auto. intros [[] _].
  - right. destruct (am_Eme e He) as [Ee _]. exists e. split; [|apply am_W0; [apply Ee|auto]].
    apply (g_EL _ _ _ _ _ _ _ _ G0); auto. destruct Ee; lia.
Qed.

Lemma am_graph : GRAPH n me Lm Lm v' (lset C me Lm) E V.
Proof.
  pose proof am_rng as Hm.
  constructor.
  - intros i Hi. destruct (Z.eq_dec i me) as [->|Ne]; [|destruct (in_dec Z.eq_dec i (E me)) as [Di|Di]].
    + right; left. split; [apply am_Elenme|]. split; [rewrite am_Nv0; pose proof am_nvme; lia|]. destruct am_Peme. split; [lia|].
      assert (X : elt v' me) by (apply am_elt; auto). apply X.
    + right; right; left. destruct (am_Eme i Di) as [Ei _]. rewrite am_Elen, am_Nv0, am_Pedead, FLIP_val by auto.
      pose proof (kind_elt _ _ _ (g_kind _ _ _ _ _ _ _ _ G0 i Hi) Ei). destruct Ei as [_ [Ei _]].
      assert (vW v' i = 0) by (apply am_W0; auto). split; auto. split; [tauto|]. split; [lia|auto].
    + pose proof (g_kind _ _ _ _ _ _ _ _ G0 i Hi) as K. unfold kind in *. rewrite am_Nv0, !am_Elen by auto.
      destruct (am_Pe i Hi Ne Di) as [A1 [A2 _]]. pose proof (am_W0 i Hi) as W0. pose proof (EW i Hi) as [W1 _].
      assert (W2 : vW v' i = 0 <-> vW v0 i = 0) by tauto. clear W0.
      destruct K as [K|[K|[K|K]]]; [left|right;left|right;right;left|right;right;right]; lia.
  - intros i Hi L. rewrite am_Nv in L. destruct (Z.eqb_spec i me); auto. destruct (inb_spec i Lm); auto. simpl in L.
    pose proof (nv0_nonneg n iwlen pf0 v0 C E V rep dl I0 i Hi). lia.
  - intros i _ Hi. rewrite am_Nv. assert (X : inb i Lm = true) by (apply inb_in; auto). rewrite X, orb_true_r.
    pose proof (nv0_pos n iwlen pf0 v0 C E V rep dl I0 i (proj1 (am_Lm i Hi))). lia.
  - intros i Hi L Ne. assert (Di : ~ In i (E me)) by (intros X; rewrite am_Pedead, FLIP_val in L by auto; lia).
    destruct (am_Pe i Hi Ne Di) as [A1 [A2 ->]]. apply (g_pos _ _ _ _ _ _ _ _ G0); auto; lia.
  - apply GSv.
  - intros x; auto.
  - intros i Hi. apply am_var. apply am_Lm; auto.
  - intros i Vi. apply am_var in Vi. rewrite am_C, am_Elen by tauto. apply (g_var _ _ _ _ _ _ _ _ G0); tauto.
  - intros i e Vi He. apply am_var in Vi. destruct Vi as [Vi Ni]. destruct (g_E _ _ _ _ _ _ _ _ G0 i e Vi He) as [Ee|[[] _]].
    destruct (in_dec Z.eq_dec e (E me)) as [De|De]; [right|left; apply am_elt; auto].
    destruct (am_Eme e De) as [_ Ne]. assert (Re : 0 <= e < n) by apply Ee.
    split; [|split; [auto|split; [rewrite am_Elen by auto; apply Ee|apply am_W0; auto]]].
    apply (br_in _ _ _ _ _ _ _ _ _ _ B). split; auto. split; auto. right. exists e. split; auto.
    apply (g_EL _ _ _ _ _ _ _ _ G0); auto. lia.
  - intros i j Vi Hj. apply am_var in Vi. destruct Vi as [Vi Ni]. destruct (g_V _ _ _ _ _ _ _ _ G0 i j Vi Hj) as [A1 [A2 A3]].
    split; auto. split; auto. destruct (Z.eq_dec j me) as [->|Nj].
    + right; right. split; auto. apply (br_in _ _ _ _ _ _ _ _ _ _ B). split; auto. split; auto. left.
      apply (g_sym _ _ _ _ _ _ _ _ G0); auto. intros [[] _].
    + rewrite am_var, am_Nv0. destruct A3 as [A3|[A3|[_ []]]]; auto.
  - intros i j Vi Vj _ Hj. apply am_var in Vi, Vj. apply (g_sym _ _ _ _ _ _ _ _ G0); try tauto.
  - intros i j Vi Hi Ni. tauto.
  - intros e i Ee Hi. apply am_elt in Ee. rewrite am_var, am_Nv0. destruct Ee as [->|[Ee De]].
    + rewrite lset_eq in Hi. left. apply am_Lm; auto.
    + assert (Ne : e <> me) by (intros ->; eapply var_elt; eauto). rewrite am_C in Hi by auto.
      destruct (g_L _ _ _ _ _ _ _ _ G0 e i Ee Hi) as [Vi|Zi]; auto. left. split; auto. intros ->. apply De.
      apply (g_EL _ _ _ _ _ _ _ _ G0); auto. destruct Ee; lia.
  - intros i e Vi Ee Ne. apply am_var in Vi. apply am_elt in Ee. rewrite am_C by auto. destruct Ee as [->|[Ee De]]; [congruence|].
    apply (g_EL _ _ _ _ _ _ _ _ G0); try tauto. destruct Ee; lia.
  - intros i Vi. apply am_var in Vi. destruct Vi as [Vi Ni]. split; [|tauto]. intros X. exfalso.
    destruct (g_E _ _ _ _ _ _ _ _ G0 i me Vi X) as [Ee|[[] _]]. exact (var_elt _ _ _ Hme Ee).
  - intros e Ee Ne. apply am_elt in Ee. destruct Ee as [->|[Ee De]]; [congruence|].
    destruct (g_deg _ _ _ _ _ _ _ _ G0 e Ee) as [A1 A2]; [destruct Ee; lia|].
    rewrite EDeg, fup_ne, (gs_deg _ _ _ _ _ GSv), Ele, (gs_le _ _ _ _ _ GSv) by auto. split; auto. rewrite A1.
    apply wsum_ext.
    + intros i Hi. destruct (varb_spec n v0 i Hi) as [X|X]; destruct (varb_spec n v' i Hi) as [Y|Y]; rewrite am_var in Y; simpl; auto; [|tauto].
      assert (i = me) as -> by (destruct (Z.eq_dec i me); tauto). apply inb_out. auto.
    + intros i Hi Vi _. rewrite am_NvA by auto. pose proof (nv0_pos n iwlen pf0 v0 C E V rep dl I0 i Vi). lia.
  - intros _. split; [apply am_elt; auto|]. split; [apply lset_eq|]. rewrite am_Nv, Z.eqb_refl. simpl. pose proof am_nvme. lia.
Qed.

Lemma am_tree : TREE n me (vNv v0 me) v' rep.
Proof.
  pose proof am_rng as Hm. destruct am_Peme as [Pm Pm0].
  apply (TREE_adopts n (-1) 0 v0 me (vNv v0 me) v' rep (E me)); auto.
  - apply I0.
  - lia.
  - intros X. apply am_Eme in X. tauto.
  - rewrite am_Nv0. pose proof am_nvme. lia.
  - intros i Hi. split; [|apply am_Pedead; auto]. destruct (am_Eme i Hi) as [Ei _].
    apply (kind_elt n v0 i); auto. apply (g_kind _ _ _ _ _ _ _ _ G0). apply Ei.
  - intros i Hi Di. destruct (Z.eq_dec i me) as [->|Ne].
    + right. pose proof (kind_var _ _ _ (g_kind _ _ _ _ _ _ _ _ G0 me Hm) Hme). lia.
    + destruct (am_Pe i Hi Ne Di) as [A1 [A2 _]]. lia.
  - intros i Hi [L| ->]; [|lia]. destruct (Z.eq_dec i me); auto. left. rewrite am_Elen; auto.
  - intros i _. apply am_Nv0.
  - intros i Hi Ni. rewrite am_NvA by auto. pose proof (nv0_nonneg n iwlen pf0 v0 C E V rep dl I0 i Hi).
    destruct (Z.eqb_spec i me) as [Em|]; [rewrite <- Em|]; destruct (Z.eqb_spec i (-1)); lia.
Qed.

Lemma am_used : used n v' <= pf0.
Proof.
  pose proof am_rng as Hm. destruct am_Peme as [Pm Pm0].
  apply Z.le_trans with (used n v0); [|apply (i_used _ _ _ _ _ _ _ _ _ _ _ _ _ _ _ _ I0)].
  set (f0 := fun i => if live v0 i then vLen v0 i else 0). set (f1 := fun i => if live v' i then vLen v' i else 0).
  change (sumz f1 (zr 0 n) <= sumz f0 (zr 0 n)).
  destruct (g_var _ _ _ _ _ _ _ _ G0 me Hme) as [EC [_ [NDE ND]]].
  assert (Nme : ~ In me (E me)) by (intros X; apply am_Eme in X; tauto).
  assert (H : sumz f1 (zr 0 n) + sumz f0 (me :: E me) = sumz f0 (zr 0 n) + sumz (fun _ => zlen Lm) [me]).
  { rewrite <- (sumz_inb n f0 (me :: E me)); [|constructor; auto|intros x [<-|X]; [auto|apply am_Eme in X; apply X]].
    rewrite <- (sumz_inb n _ [me]); [|constructor; [intros []|constructor]|intros x [<-|[]]; auto].
    rewrite <- !sumz_plus. apply sumz_ext. intros i Hi. apply in_zr in Hi. unfold f1, f0, live.
    destruct (Z.eq_dec i me) as [->|Ne].
    - destruct (inb_spec me (me :: E me)) as [_|X]; [|exfalso; apply X; left; auto].
      destruct (inb_spec me [me]) as [_|X]; [|exfalso; apply X; left; auto].
      rewrite Pm. destruct (Z.leb_spec 0 pme1); [|lia]. rewrite ELen, fup_eq. lia.
    - rewrite (inb_out i [me]) by (intros [X|[]]; congruence). destruct (inb_spec i (me :: E me)) as [[X|X]|X]; [congruence| |].
      + rewrite am_Pedead, FLIP_val by auto. destruct (Z.leb_spec 0 (- me - 2)); lia.
      + destruct (am_Pe i Hi Ne) as [A1 [A2 ->]]; [intros Y; apply X; right; auto|].
        destruct (Z.leb_spec 0 (vPe v0 i)); destruct (Z.leb_spec 0 (vPe v' i)); lia. }
  cbn [sumz] in H. pose proof (br_len _ _ _ _ _ _ _ _ _ _ B) as BL.
  assert (F : f0 me = zlen (E me) + zlen (V me)).
  { unfold f0, live. destruct (kind_var _ _ _ (g_kind _ _ _ _ _ _ _ _ G0 me Hm) Hme) as [L _]. destruct (Z.leb_spec 0 (vPe v0 me)); [|lia].
    rewrite (m_len _ _ _ _ M0 me Hm L), EC, zlen_app. auto. }
  assert (F2 : sumz f0 (E me) = sumz (fun e => zlen (C e)) (E me)).
  { apply sumz_ext. intros e He. destruct (am_Eme e He) as [Ee _]. assert (Re : 0 <= e < n) by apply Ee. unfold f0, live.
    destruct (kind_elt _ _ _ (g_kind _ _ _ _ _ _ _ _ G0 e Re) Ee) as [L _]. destruct (Z.leb_spec 0 (vPe v0 e)); [|lia]. apply M0; auto. }
  pose proof (zlen_nonneg (E me)). lia.
Qed.

Lemma assemble : exists dl', INV n iwlen pf0 me Lm Lm (vNv v0 me) D f v' (lset C me Lm) E V rep dl' (fun _ => []).
Proof.
  destruct (gs_dl _ _ _ _ _ GSv) as [dl' [H Hdl]]. exists dl'. pose proof am_rng as Hm. constructor.
  - apply am_graph.
  - apply am_tree.
  - constructor.
    + destruct H. constructor; rewrite ?EHead, ?ENext, ?ELast; auto.
    + intros x d. rewrite Hdl, am_var, am_Nv, EDeg. split.
      * intros [Vx [Nx [Lx Dx]]]. split; auto. destruct (Z.eqb_spec x me); [congruence|]. rewrite inb_out by auto. simpl.
        split; [eapply nv0_pos; eauto|]. rewrite fup_ne, (gs_deg _ _ _ _ _ GSv); auto.
      * intros [[Vx Nx] [Px Dx]]. split; auto. split; auto. rewrite fup_ne, (gs_deg _ _ _ _ _ GSv) in Dx by auto. split; auto.
        intros X. apply inb_in in X. rewrite X, orb_true_r in Px. pose proof (nv0_pos n iwlen pf0 v0 C E V rep dl I0 x Vx). lia.
    + intros x Vx. apply am_var in Vx. rewrite EDeg, fup_ne, (gs_deg _ _ _ _ _ GSv) by tauto. apply (d_rng _ _ _ _ _ (i_d _ _ _ _ _ _ _ _ _ _ _ _ _ _ _ _ I0)). tauto.
    + rewrite Emd. destruct (gs_md _ _ _ _ _ GSv) as [A1 A2]. split; auto. intros x Vx _. apply am_var in Vx.
      rewrite EDeg, fup_ne, (gs_deg _ _ _ _ _ GSv) by tauto. apply A2; tauto.
    + intros x d [].
  - pose proof (br_mem _ _ _ _ _ _ _ _ _ _ B) as [m1 m2 m3 m4 m5 m6 m7]. vs.
    constructor; rewrite ?EPe, ?ELen, ?EIw, ?Epf, ?Ehi; auto.
  - apply am_used.
  - intros i Hi. apply EW; auto.
  - rewrite Enel, (gs_nel _ _ _ _ _ GSv). pose proof (i_tot _ _ _ _ _ _ _ _ _ _ _ _ _ _ _ _ I0) as T.
    assert (X : wsum n v0 (fun _ => true) = wsum n v' (fun _ => true) + sumz (fun _ => vNv v0 me) [me]).
    { rewrite <- (sumz_inb n _ [me]); [|constructor; [intros []|constructor]|intros x [<-|[]]; auto]. unfold wsum.
      rewrite <- sumz_plus. apply sumz_ext. intros i Hi. apply in_zr in Hi.
      pose proof (nv0_nonneg n iwlen pf0 v0 C E V rep dl I0 i Hi).
      destruct (varb_spec n v0 i Hi) as [X|X]; destruct (varb_spec n v' i Hi) as [Y|Y]; rewrite am_var in Y; simpl; rewrite ?am_NvA by auto.
      - destruct (Z.eqb_spec i me); [tauto|]. simpl. lia.
      - assert (i = me) as -> by (destruct (Z.eq_dec i me); tauto). rewrite Z.eqb_refl. simpl. lia.
      - tauto.
      - destruct (Z.eqb_spec i me) as [->|]; [tauto|]. simpl. lia. }
    simpl in X. lia.
  - rewrite ED. rewrite wsum_list; [|apply GSv|intros i Hi; apply am_var, am_Lm; auto].
    apply sumz_ext. intros i Hi. apply am_Lm in Hi. destruct Hi as [[Hi _] _]. rewrite am_NvA; auto.
  - rewrite Epf. apply B.
Qed.
End Asm.
