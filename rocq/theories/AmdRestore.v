(** The end of an elimination, src/amd_2.c:1444-1514: degree lists restored, the new element compressed. *)
From Coq Require Import ZArith List Lia Bool.
From RecordUpdate Require Import RecordUpdate.
From Verif Require Import Res Lists MAmd AmdBase AmdView AmdLists AmdGc AmdInv AmdBuild AmdScan1 AmdScan2 AmdDetect.
Import ListNotations.
Open Scope Z_scope.
Open Scope res_scope.

Lemma sumz_ones {T} (l : list T) : sumz (fun _ => 1) l = zlen l.
Proof. induction l as [|x l IH]; [reflexivity|]. rewrite zlen_cons. simpl. lia. Qed.

Lemma zlen_nil_inv {T} (l : list T) : zlen l = 0 -> l = [].
Proof. destruct l as [|x l]; auto. rewrite zlen_cons. pose proof (zlen_nonneg l). lia. Qed.

Lemma sum_sizes n rep : 0 <= n -> (forall i, 0 <= i < n -> 0 <= rep i < n) -> sumz (size n rep) (zr 0 n) = n.
Proof.
  intros Hn H. unfold size. rewrite sumz_swap. rewrite (sumz_ext _ (fun _ => 1)).
  - rewrite sumz_ones, zlen_zr. lia.
  - intros i Hi. apply in_zr in Hi. rewrite (sumz_ext _ (fun x => if x =? rep i then 1 else 0)).
    + apply sumz_delta; [apply NoDup_zr|apply in_zr; auto].
    + intros x _. rewrite Z.eqb_sym. auto.
Qed.

Lemma size_nonneg n rep r : 0 <= size n rep r.
Proof. apply sumz_nonneg. intros i _. destruct (rep i =? r); lia. Qed.

Lemma size_self n rep r : 0 <= r < n -> rep r = r -> 1 <= size n rep r.
Proof.
  intros Hr E. unfold size. replace 1 with ((fun i => if rep i =? r then 1 else 0) r) at 1 by (cbv beta; rewrite E, Z.eqb_refl; auto).
  apply (sumz_ge_term (fun i => if rep i =? r then 1 else 0)); [intros i _; destruct (rep i =? r); lia|apply in_zr; auto].
Qed.

(** The weights of the variables left add up to at most n. *)
Lemma TREE_total n me nvp v rep : 0 <= n -> TREE n me nvp v rep -> ~ var n v me -> wsum n v (fun _ => true) <= n.
Proof.
  intros Hn T Nm. rewrite <- (sum_sizes n rep Hn) at 2; [|apply T]. apply sumz_le. intros i Hi. apply in_zr in Hi.
  destruct (varb_spec n v i Hi) as [Vi|_]; simpl; [|apply size_nonneg]. rewrite (t_sz _ _ _ _ _ T i Hi) by apply Vi.
  destruct (Z.eqb_spec i me) as [->|]; [tauto|lia].
Qed.

Section Restore.
Variables (n iwlen pf0 : Z).
Notation Vw := (Vw n iwlen).
Notation var := (var n).
Notation elt := (elt n).
Variables (me : Z) (Lm : list Z) (nvp D : Z) (v : vw) (C E V : Z -> list Z) (rep : Z -> Z) (dl hb : Z -> list Z) (wb : Z).
Hypothesis Hm : 0 <= me.
Hypothesis I0 : INV n iwlen pf0 me Lm [] nvp D wb v C E V rep dl hb.
Hypothesis Hb : forall d, hb d = [].
Let G0 := i_g _ _ _ _ _ _ _ _ _ _ _ _ _ _ _ _ I0.
Let M0 := i_m _ _ _ _ _ _ _ _ _ _ _ _ _ _ _ _ I0.
Let D0 := i_d _ _ _ _ _ _ _ _ _ _ _ _ _ _ _ _ I0.

Lemma re_me : elt v me /\ C me = Lm /\ vNv v me < 0 /\ 0 <= me < n /\ 0 <= vPe v me.
Proof.
  destruct (g_me _ _ _ _ _ _ _ _ G0 Hm) as [Em [EC Nm]]. assert (Rm : 0 <= me < n) by apply Em.
  destruct (kind_elt _ _ _ (g_kind _ _ _ _ _ _ _ _ G0 me Rm) Em). auto.
Qed.
Lemma re_Lm i : In i Lm -> 0 <= i < n /\ i <> me /\ (var v i /\ vNv v i < 0 \/ vNv v i = 0).
Proof.
  intros Hi. destruct re_me as [Em [EC [Nm [Rm Pm]]]].
  assert (Hi' : In i (C me)) by (rewrite EC; auto). pose proof (g_L _ _ _ _ _ _ _ _ G0 me i Em Hi') as K.
  assert (Ri : 0 <= i < n). { eapply (Mem_in n); [exact M0|exact Rm|auto|exact Hi']. }
  split; auto. destruct K as [K|K]; [|split; [intros ->; lia|auto]]. split; [intros ->; exact (var_elt _ _ _ K Em)|].
  left. split; auto. apply (g_Lneg _ _ _ _ _ _ _ _ G0); auto.
Qed.
Lemma re_abs x : 0 <= x < n -> x <> me -> ~ In x Lm -> 0 <= vNv v x.
Proof. intros Hx Nx Hn. destruct (Z_lt_dec (vNv v x) 0) as [L|L]; [|lia]. destruct (g_neg _ _ _ _ _ _ _ _ G0 x Hx L); tauto. Qed.

Definition nz (x : Z) : bool := negb (vNv v x =? 0).
Notation L' := (filter nz Lm).

Lemma re_in i : var v i -> (In i L' <-> In i Lm).
Proof.
  intros Vi. unfold nz. rewrite filter_In, negb_true_iff, Z.eqb_neq. destruct Vi as [_ [X _]]. tauto.
Qed.
Lemma re_L' i : In i L' <-> In i Lm /\ var v i.
Proof.
  unfold nz. rewrite filter_In, negb_true_iff, Z.eqb_neq. split.
  - intros [H1 H2]. split; auto. destruct (re_Lm i H1) as [_ [_ [[X _]|X]]]; tauto.
  - intros [H1 H2]. split; auto. apply H2.
Qed.

Section Final.
Variables (v' : vw) (dl' : Z -> list Z).
Hypothesis ENm : vNv v' me = nvp.
Hypothesis ENv : forall x, 0 <= x < n -> x <> me -> vNv v' x = Z.abs (vNv v x).
Hypothesis EEl : vElen v' = vElen v.
Hypothesis EPx : forall x, x <> me -> vPe v' x = vPe v x.
Hypothesis EPm : vPe v' me = if zlen L' =? 0 then EMPTY else vPe v me.
Hypothesis EWx : forall x, x <> me -> vW v' x = vW v x.
Hypothesis EWm : vW v' me = if zlen L' =? 0 then 0 else vW v me.
Hypothesis ELx : forall x, x <> me -> vLen v' x = vLen v x.
Hypothesis ELm : vLen v' me = zlen L'.
Hypothesis EIw : cells (vIw v') (vPe v me) L'.
Hypothesis EIo : forall q, ~ (vPe v me <= q < vPe v me + zlen L') -> vIw v' q = vIw v q.
Hypothesis EDo : forall x, ~ In x Lm -> vDeg v' x = vDeg v x.
Hypothesis EDi : forall x, In x Lm -> var v x -> 0 <= vDeg v' x < n.
Hypothesis EDm : vDeg v me = D.
Hypothesis ELe : vle v' = vle v.
Hypothesis EDl : D <= vle v.
Hypothesis Enel : vnel v' = vnel v.
Hypothesis Ehi : vhi v' = vhi v.
Hypothesis Epf : vpf v' = vpf v \/ (vPe v me + zlen Lm = vpf v /\ vpf v' = vPe v me + zlen L').
Hypothesis HH : HL n v' dl' (fun _ => []).
Hypothesis Hdl : forall x d, In x (dl' d) <-> var v x /\ vDeg v' x = d.
Hypothesis Hmd : 0 <= vmd v' /\ forall x, var v x -> vmd v' <= vDeg v' x.

Lemma fi_nvp : 0 < nvp.
Proof.
  destruct re_me as [Em [EC [Nm [Rm Pm]]]]. pose proof (i_t _ _ _ _ _ _ _ _ _ _ _ _ _ _ _ _ I0) as T.
  pose proof (t_sz _ _ _ _ _ T me Rm ltac:(lia)) as S. rewrite Z.eqb_refl in S. rewrite <- S.
  pose proof (size_self n rep me Rm). rewrite (t_self _ _ _ _ _ T me Rm) in H by lia. lia.
Qed.
Lemma fi_var x : var v' x <-> var v x.
Proof.
  destruct re_me as [Em [EC [Nm [Rm Pm]]]]. unfold var. rewrite EEl. destruct (Z.eq_dec x me) as [->|Nx].
  - destruct Em as [_ [X _]]. lia.
  - split; intros [A B]; split; auto; [rewrite ENv in B by auto; lia|rewrite ENv by auto; lia].
Qed.
Lemma fi_nonempty : zlen L' <> 0 <-> L' <> [].
Proof.
  split; intros H X; apply H; [rewrite X; auto|]. apply zlen_nil_inv; auto.
Qed.
Lemma fi_elt x : elt v' x <-> elt v x /\ (x = me -> L' <> []).
Proof.
  destruct re_me as [Em [EC [Nm [Rm Pm]]]]. unfold elt. rewrite EEl. destruct (Z.eq_dec x me) as [->|Nx].
  - rewrite EWm. destruct Em as [_ [X Y]]. pose proof fi_nonempty as Z. destruct (Z.eqb_spec (zlen L') 0) as [F|F]; [|tauto].
    split; [tauto|]. intros [_ W]. specialize (W eq_refl). apply Z in W. tauto.
  - rewrite EWx by auto. tauto.
Qed.
Lemma fi_wsum P P' : (forall x, var v x -> P' x = P x) -> wsum n v' P' = wsum n v P.
Proof.
  intros H. apply wsum_ext.
  - intros x Hx. destruct (varb_spec n v' x Hx) as [X|X]; destruct (varb_spec n v x Hx) as [Y|Y]; rewrite fi_var in X; try tauto. rewrite H; auto.
  - intros x Hx X _. apply fi_var in X. rewrite ENv; [lia|auto|]. intros ->. destruct re_me as [Em _]. exact (var_elt _ _ _ X Em).
Qed.

Lemma fi_L'le : zlen L' <= zlen Lm.
Proof. apply zlen_filter. Qed.

Lemma fi_graph : GRAPH n (-1) [] [] v' (lset C me L') E V.
Proof.
  destruct re_me as [Em [EC [Nm [Rm Pm]]]]. pose proof fi_nvp as Np.
  assert (Nvar : forall x, var v x -> x <> me) by (intros x X ->; exact (var_elt _ _ _ X Em)).
  assert (NmE : forall i, var v i -> (In me (E i) <-> In i Lm)).
  { intros i Vi. rewrite (g_ELme _ _ _ _ _ _ _ _ G0 i Vi). simpl. tauto. }
  assert (Live : forall i, var v i -> In i Lm -> L' <> []).
  { intros i Vi Hi X. assert (Y : In i L') by (apply re_L'; auto). rewrite X in Y. destruct Y. }
  assert (gE : forall i e, var v i -> In e (E i) -> elt v e).
  { intros i e Vi He. destruct (g_E _ _ _ _ _ _ _ _ G0 i e Vi He) as [X|[[] _]]; auto. }
  constructor.
  - intros x Hx. pose proof (g_kind _ _ _ _ _ _ _ _ G0 x Hx) as K. unfold kind in *. rewrite EEl. destruct (Z.eq_dec x me) as [->|Nx].
    + rewrite ENm, EPm, EWm. destruct Em as [_ [X Y]]. destruct (zlen L' =? 0); [rewrite EMPTY_val|]; lia.
    + rewrite ENv, EPx, EWx by auto. lia.
  - intros x Hx Lx. exfalso. destruct (Z.eq_dec x me) as [->|Nx]; [lia|]. rewrite ENv in Lx by auto. lia.
  - intros x _ [].
  - intros x Hx Lx _. destruct (Z.eq_dec x me) as [->|Nx].
    + rewrite EPm in Lx. rewrite ELm. pose proof (zlen_nonneg L'). destruct (Z.eqb_spec (zlen L') 0); [rewrite EMPTY_val in Lx|]; lia.
    + rewrite EPx in Lx by auto. rewrite ELx by auto. apply (g_pos _ _ _ _ _ _ _ _ G0); auto.
  - constructor.
  - intros x [].
  - intros x [].
  - intros x Vx. apply fi_var in Vx. rewrite EEl, lset_ne by auto. apply G0; auto.
  - intros i e Vi He. apply fi_var in Vi. left. apply fi_elt. split; [eauto|]. intros ->. apply (Live i); auto. apply NmE; auto.
  - intros i j Vi Hj. apply fi_var in Vi. destruct (g_V _ _ _ _ _ _ _ _ G0 i j Vi Hj) as [A1 [A2 [A3|[A3|[_ []]]]]].
    + rewrite fi_var. auto.
    + split; auto. split; auto. right; left. rewrite ENv; [lia|auto|]. intros ->. lia.
  - intros i j Vi Vj _ Hj. apply fi_var in Vi, Vj. apply (g_sym _ _ _ _ _ _ _ _ G0 i j); auto. intros [X Y].
    apply (g_VLm _ _ _ _ _ _ _ _ G0 i j); auto.
  - intros i j _ [].
  - intros e i Ee Hi. apply fi_elt in Ee. destruct Ee as [Ee _]. rewrite fi_var.
    assert (K : var v i \/ vNv v i = 0).
    { destruct (Z.eq_dec e me) as [->|Ne]; [rewrite lset_eq in Hi; apply re_L' in Hi; tauto|].
      rewrite lset_ne in Hi by auto. apply (g_L _ _ _ _ _ _ _ _ G0 e); auto. }
    assert (Ri : 0 <= i < n).
    { destruct (Z.eq_dec e me) as [->|Ne]; [rewrite lset_eq in Hi; apply re_L' in Hi; apply re_Lm; tauto|]. rewrite lset_ne in Hi by auto.
      eapply (Mem_in n); [exact M0| | |exact Hi]; [apply Ee|]. apply (kind_elt n v e); [apply G0; apply Ee|auto]. }
    destruct K as [K|K]; auto. right. rewrite ENv; [lia|auto|]. intros ->. lia.
  - intros i e Vi Ee _. apply fi_var in Vi. apply fi_elt in Ee. destruct (Z.eq_dec e me) as [->|Ne].
    + rewrite lset_eq, NmE, re_in by auto. tauto.
    + rewrite lset_ne by auto. apply (g_EL _ _ _ _ _ _ _ _ G0); tauto.
  - intros i Vi. apply fi_var in Vi. split; [|intros [[] _]]. intros X. destruct (gE _ _ Vi X) as [Y _]. lia.
  - intros e Ee _. apply fi_elt in Ee. destruct Ee as [Ee NE]. rewrite (fi_wsum (fun i => inb e (E i))) by auto. rewrite ELe.
    destruct (Z.eq_dec e me) as [->|Ne].
    + assert (NmL : ~ In me Lm) by (intros X; apply re_Lm in X; tauto). rewrite EDo by auto. rewrite EDm.
      pose proof (i_dme _ _ _ _ _ _ _ _ _ _ _ _ _ _ _ _ I0) as Dm.
      assert (Eq : wsum n v (fun i => inb me (E i)) = wsum n v (fun i => inb i Lm)).
      { apply wsum_ext; auto. intros x Hx. destruct (varb_spec n v x Hx) as [X|X]; simpl; auto. specialize (NmE x X).
        destruct (inb_spec me (E x)); destruct (inb_spec x Lm); tauto. }
      split; [congruence|]. split; auto. specialize (NE eq_refl). generalize re_L'. destruct L' as [|y l] eqn:EL; [congruence|]. intros RL.
      destruct (proj1 (RL y) (or_introl eq_refl)) as [Y1 Y2]. rewrite Dm.
      pose proof (wsum_pos n v (fun i => inb i Lm) y Y2 ltac:(apply inb_in; auto)) as W. destruct Y2 as [_ [Y2 _]]. lia.
    + rewrite EDo; [apply (g_deg _ _ _ _ _ _ _ _ G0); auto|]. intros X. destruct (re_Lm e X) as [Re [_ [[X1 X2]|X1]]].
      * exact (var_elt _ _ _ X1 Ee).
      * destruct (kind_elt _ _ _ (g_kind _ _ _ _ _ _ _ _ G0 e Re) Ee). lia.
  - lia.
Qed.

Lemma fi_pf : vpf v' <= vpf v /\ 0 <= vpf v' /\ vPe v me + zlen L' <= vpf v' /\ forall x, 0 <= x < n -> x <> me -> 0 <= vPe v x -> vPe v x + vLen v x <= vpf v'.
Proof.
  destruct re_me as [Em [EC [Nm [Rm Pm]]]]. pose proof fi_L'le as LL. pose proof (zlen_nonneg L') as ZL.
  pose proof (m_len _ _ _ _ M0 me Rm Pm) as LM. rewrite EC in LM. pose proof (m_lim _ _ _ _ M0 me Rm Pm) as LimM. pose proof (m_pf _ _ _ _ M0).
  destruct Epf as [->|[E1 ->]].
  - split; [lia|]. split; [lia|]. split; [lia|]. intros x Hx Nx Lx. apply (m_lim _ _ _ _ M0); auto.
  - split; [lia|]. split; [lia|]. split; [lia|]. intros x Hx Nx Lx. pose proof (m_lim _ _ _ _ M0 x Hx Lx).
    pose proof (g_pos _ _ _ _ _ _ _ _ G0 x Hx Lx Nx). destruct (m_dis _ _ _ _ M0 x me Hx Rm Nx Lx Pm); lia.
Qed.

Lemma fi_mem : Mem n v' (lset C me L') (vpf v').
Proof.
  destruct re_me as [Em [EC [Nm [Rm Pm]]]]. pose proof fi_L'le as LL. pose proof (zlen_nonneg L') as ZL.
  pose proof (m_len _ _ _ _ M0 me Rm Pm) as LM. rewrite EC in LM. destruct fi_pf as [P1 [P2 [P3 P4]]].
  assert (Pme : forall x, x = me -> 0 <= vPe v' x -> vPe v' x = vPe v me).
  { intros x -> L. rewrite EPm in *. destruct (zlen L' =? 0); auto. rewrite EMPTY_val in L. lia. }
  pose proof (m_pf _ _ _ _ M0). pose proof (m_hi _ _ _ _ M0). constructor.
  - intros i Hi L. destruct (Z.eq_dec i me) as [->|Ne]; [rewrite ELm, lset_eq; auto|]. rewrite EPx in L by auto. rewrite ELx, lset_ne by auto. apply M0; auto.
  - intros i Hi L. destruct (Z.eq_dec i me) as [->|Ne]; [rewrite (Pme me eq_refl L), lset_eq; auto|]. rewrite EPx in * by auto. rewrite lset_ne by auto.
    apply (cells_ext (vIw v)); [|apply M0; auto]. intros q Hq. rewrite EIo; auto. intros X. rewrite <- (m_len _ _ _ _ M0 i Hi L) in Hq.
    pose proof (m_dis _ _ _ _ M0 i me Hi Rm Ne L Pm). lia.
  - intros i Hi L. destruct (Z.eq_dec i me) as [->|Ne]; [rewrite (Pme me eq_refl L), ELm; auto|]. rewrite EPx in * by auto. rewrite ELx by auto. auto.
  - intros i j Hi Hj Nij Li Lj. assert (Ei : vPe v' i = vPe v i) by (destruct (Z.eq_dec i me) as [->|]; auto).
    assert (Ej : vPe v' j = vPe v j) by (destruct (Z.eq_dec j me) as [->|]; auto). rewrite Ei, Ej in *.
    pose proof (m_dis _ _ _ _ M0 i j Hi Hj Nij Li Lj).
    destruct (Z.eq_dec i me) as [->|Ni]; [rewrite ELm, (ELx j) by auto; lia|]. destruct (Z.eq_dec j me) as [->|Nj]; [rewrite ELm, (ELx i) by auto; lia|].
    rewrite !ELx by auto. auto.
  - lia.
  - rewrite Ehi. lia.
  - intros q Hq. destruct (Z_le_dec (vPe v me) q) as [L1|L1]; [destruct (Z_lt_dec q (vPe v me + zlen L')) as [L2|L2]|].
    2, 3: rewrite EIo by lia; apply (m_rng _ _ _ _ M0); lia.
    replace q with (vPe v me + Z.of_nat (Z.to_nat (q - vPe v me))) by lia. rewrite (cells_nth _ _ _ _ 0 EIw) by (unfold zlen in *; lia).
    apply (re_Lm (nth (Z.to_nat (q - vPe v me)) L' 0)). apply re_L'. apply nth_In. unfold zlen in *. lia.
Qed.

Lemma fi_INV : (forall x, 0 <= x < n -> vW v x < vwf v') -> INV n iwlen pf0 (-1) [] [] 0 0 (vwf v') v' (lset C me L') E V rep dl' (fun _ => []).
Proof.
  intros HW. destruct re_me as [Em [EC [Nm [Rm Pm]]]]. pose proof fi_nvp as Np. pose proof fi_L'le as LL. pose proof (zlen_nonneg L') as ZL.
  pose proof (m_len _ _ _ _ M0 me Rm Pm) as LM. rewrite EC in LM.
  constructor.
  - apply fi_graph.
  - apply (TREE_frame n me nvp v (-1) 0 v' rep); [apply I0|..].
    + intros x Hx. destruct (Z.eq_dec x me) as [->|Nx]; [|rewrite EPx by auto; auto]. right. rewrite EPm. destruct (zlen L' =? 0); [rewrite EMPTY_val|]; lia.
    + intros x Hx [X| ->]; rewrite EEl; auto. left. apply Em.
    + intros x Hx. destruct (Z.eq_dec x me) as [->|Nx]; [lia|]. rewrite ENv by auto. lia.
    + intros x Hx Nx. destruct (Z.eqb_spec x (-1)); [lia|]. destruct (Z.eqb_spec x me) as [->|Nxm]; [rewrite ENm; lia|]. rewrite ENv by auto. lia.
  - constructor; auto.
    + intros x d. rewrite Hdl, fi_var. split; [|tauto]. intros [X Y]. split; auto. split; auto.
      rewrite ENv; [destruct X as [_ [X _]]; lia|apply X|intros ->; exact (var_elt _ _ _ X Em)].
    + intros x Vx. apply fi_var in Vx. destruct (in_dec Z.eq_dec x Lm) as [X|X]; auto. rewrite EDo by auto. apply D0; auto.
    + split; [tauto|]. intros x Vx _. apply fi_var in Vx. apply Hmd; auto.
    + intros x d [].
  - apply fi_mem.
  - eapply Z.le_trans; [apply (used_le n v v')|apply I0].
    + intros x Hx Lx. destruct (Z.eq_dec x me) as [->|Nx]; [rewrite ELm; split; [auto|lia]|]. rewrite EPx in Lx by auto. rewrite ELx by auto. split; [auto|lia].
    + intros x Hx Lx. eapply Mem_len; [apply I0|auto|auto].
  - intros x Hx. pose proof (i_w _ _ _ _ _ _ _ _ _ _ _ _ _ _ _ _ I0 x Hx). pose proof (HW x Hx).
    destruct (Z.eq_dec x me) as [->|Nx]; [rewrite EWm; destruct (zlen L' =? 0); lia|]. rewrite EWx by auto. lia.
  - rewrite (fi_wsum (fun _ => true)), Enel by auto. apply I0.
  - symmetry. apply wsum_none. auto.
  - destruct fi_pf. pose proof (i_hi _ _ _ _ _ _ _ _ _ _ _ _ _ _ _ _ I0). lia.
Qed.
End Final.
(** ** The loop *)
Record RS (d : list Z) (w : vw) (dl' : Z -> list Z) : Prop := mkRS {
  rs_nv : forall x, vNv w x = if inb x d then Z.abs (vNv v x) else vNv v x;
  rs_fr : vPe w = vPe v /\ vLen w = vLen v /\ vElen w = vElen v /\ vW w = vW v /\ vpf w = vpf v /\ vnel w = vnel v /\ vwf w = vwf v /\ vle w = vle v /\ vhi w = vhi v;
  rs_dg : forall x, ~ In x d -> vDeg w x = vDeg v x;
  rs_dr : forall x, In x d -> var v x -> 0 <= vDeg w x < n /\ vmd w <= vDeg w x;
  rs_iw : cells (vIw w) (vPe v me) (filter nz d);
  rs_io : forall q, ~ (vPe v me <= q < vPe v me + zlen (filter nz d)) -> vIw w q = vIw v q;
  rs_hl : HL n w dl' (fun _ => []);
  rs_dl : forall x k, In x (dl' k) <-> In x (dl k) \/ (In x d /\ var v x /\ vDeg w x = k);
  rs_md : 0 <= vmd w <= vmd v
}.

Lemma re_nel : 0 <= n -> 0 <= vnel v.
Proof.
  intros Hn. destruct re_me as [Em _]. pose proof (i_t _ _ _ _ _ _ _ _ _ _ _ _ _ _ _ _ I0) as T.
  pose proof (TREE_total n me nvp v rep Hn T (fun X => var_elt _ _ _ X Em)). pose proof (i_tot _ _ _ _ _ _ _ _ _ _ _ _ _ _ _ _ I0). lia.
Qed.

(** Line 1459: the degree put in the list is in range. *)
Lemma re_deg i x : In i Lm -> var v i -> 0 <= x -> 0 <= Z.min (x + D - Z.abs (vNv v i)) (n - vnel v - Z.abs (vNv v i)) < n.
Proof.
  intros Hi Vi Hx. assert (Hn : 0 <= n) by (destruct Vi; lia). pose proof (re_nel Hn).
  pose proof (i_tot _ _ _ _ _ _ _ _ _ _ _ _ _ _ _ _ I0). pose proof (i_dme _ _ _ _ _ _ _ _ _ _ _ _ _ _ _ _ I0).
  pose proof (wsum_pos n v (fun _ => true) i Vi eq_refl). pose proof (wsum_pos n v (fun i => inb i Lm) i Vi ltac:(apply inb_in; auto)).
  destruct Vi as [_ [Nz _]]. lia.
Qed.

Lemma HL_nohb w dl' hb' : HL n w dl' hb' -> (forall d, hb' d = []) -> HL n w dl' (fun _ => []).
Proof.
  intros [h1 h2 h3 h4 h5 h6] H. constructor.
  - intros d Hd. rewrite h1, H; auto.
  - intros d Hd. rewrite <- (H d); auto.
  - intros d Hd. rewrite <- (H d); auto.
  - intros d x Hx. apply (h4 d). rewrite H. auto.
  - intros d. rewrite <- (H d). auto.
  - intros d d' x X Y. apply (h6 d d' x); rewrite H; auto.
Qed.

Lemma restore_ok s (Q : Z * ast -> Prop) : Vw s v ->
  (forall s' w dl', Vw s' w -> RS Lm w dl' -> Q (vPe v me + zlen L', s')) ->
  wp (restore n (vPe v me) (vPe v me + zlen Lm - 1) D s) Q.
Proof.
  intros Vs HQ. unfold restore. rewrite (V_nel _ _ _ _ Vs). destruct re_me as [Em [EC [Nm [Rm Pm]]]].
  pose proof (m_cells _ _ _ _ M0 me Rm Pm) as Cm. rewrite EC in Cm. pose proof (m_lim _ _ _ _ M0 me Rm Pm) as Lim. rewrite (m_len _ _ _ _ M0 me Rm Pm), EC in Lim.
  pose proof (m_pf _ _ _ _ M0) as Mp. pose proof (m_hi _ _ _ _ M0) as Mh. pose proof (g_Lm _ _ _ _ _ _ _ _ G0) as ND.
  apply (wp_for_list Lm (fun d r '(p, s) => p = vPe v me + zlen (filter nz d) /\ exists w dl', Vw s w /\ RS d w dl')).
  - lia.
  - split; [simpl; change (zlen (@nil Z)) with 0; lia|]. exists v, dl. split; auto. constructor; simpl; auto; try tauto.
    + apply (HL_nohb v dl hb); auto. apply D0.
    + pose proof (d_md _ _ _ _ _ D0). lia.
  - clear s Vs HQ. intros d i r [p s] EL [-> [w [dl' [Vs R]]]].
    rewrite EL in Cm. apply cells_app in Cm. destruct Cm as [_ [Ci _]].
    assert (ZL : zlen Lm = zlen d + (1 + zlen r)) by (rewrite EL; rewrite zlen_app, zlen_cons; lia).
    pose proof (zlen_nonneg d). pose proof (zlen_nonneg r). pose proof (zlen_filter nz d) as Zf. pose proof (zlen_nonneg (filter nz d)).
    destruct (rs_fr _ _ _ R) as [F1 [F2 [F3 [F4 [F5 [F6 [F7 [F8 F9]]]]]]]].
    assert (Hi : In i Lm) by (rewrite EL; apply in_app_iff; right; left; auto).
    assert (Nd : ~ In i d) by (intros X; rewrite EL in ND; apply NoDup_remove_2 in ND; apply ND; apply in_app_iff; auto).
    assert (FE : filter nz (d ++ [i]) = if nz i then filter nz d ++ [i] else filter nz d) by (rewrite filter_app; simpl; destruct (nz i); rewrite ?app_nil_r; auto).
    destruct (re_Lm i Hi) as [Ri [Nim Hk]].
    ard. rewrite (rs_io _ _ _ R) by lia. rewrite Ci. ard. rewrite (rs_nv _ _ _ R), (inb_out _ _ Nd).
    assert (Inb : forall x, inb x (d ++ [i]) = inb x d || (x =? i)).
    { intros x. unfold inb. rewrite existsb_app. simpl. rewrite orb_false_r. auto. }
    destruct (Z.ltb_spec 0 (- vNv v i)) as [L|L].
    + destruct Hk as [[Vi Ni]|Z0]; [|lia]. assert (Enz : nz i = true) by (unfold nz; destruct (Z.eqb_spec (vNv v i) 0); [lia|auto]). rewrite Enz in FE.
      aw s1 V1. ard. rewrite (rs_dg _ _ _ R) by auto. replace (- vNv v i) with (Z.abs (vNv v i)) in * by lia.
      pose proof (re_deg i (vDeg v i) Hi Vi ltac:(apply (d_rng _ _ _ _ _ D0); auto)) as Rd.
      set (deg := Z.min (vDeg v i + D - Z.abs (vNv v i)) (n - vnel v - Z.abs (vNv v i))) in *.
      assert (Fr : forall k, ~ In i (dl' k)).
      { intros k X. apply (rs_dl _ _ _ R) in X. destruct X as [X|[X _]]; [|tauto]. apply (d_dl _ _ _ _ _ D0) in X. lia. }
      pose proof (rs_hl _ _ _ R) as HL0. ard. rewrite (hl_head _ _ _ _ HL0 deg Rd).
      set (hd := hdE (dl' deg)). assert (Ehd : match dl' deg with [] => FLIP (hdE (@nil Z)) | x :: _ => x end = hd).
      { unfold hd. destruct (dl' deg); [simpl; rewrite FLIP_EMPTY|]; auto. }
      rewrite Ehd.
      assert (Fin : forall s' la, Vw s' (uLast (uNv w (fup (vNv w) i (Z.abs (vNv v i)))) la) -> (forall x, x <> hd \/ dl' deg = [] -> la x = vLast w x) ->
        (forall x r, dl' deg = x :: r -> la x = i) ->
        wp (s <- sNext s' i hd ;; s <- sLast s i EMPTY ;; s <- sHead s deg i ;; (let s := s <| mindeg := Z.min (mindeg s) deg |> in
            s <- sDeg s i deg ;; s <- sIw s (vPe v me + zlen (filter nz d)) i ;; Ok (vPe v me + zlen (filter nz d) + 1, s)))
          (fun '(p, s) => p = vPe v me + zlen (filter nz (d ++ [i])) /\ exists w dl', Vw s w /\ RS (d ++ [i]) w dl')).
      { intros s2 la V2 L1 L2. aw s3 V3. aw s4 V4. aw s5 V5. cbv zeta. rewrite (V_md _ _ _ _ V5). vs.
        eapply (Smd _ _ _ _ (Z.min (vmd w) deg)) in V5. vs. aw s6 V6. aw s7 V7. wok.
        rewrite FE, zlen_app. change (zlen [i]) with 1. split; [lia|].
        eexists. exists (lset dl' deg (i :: dl' deg)). split; [exact V7|]. constructor; vs.
        - intros x. rewrite Inb. destruct (Z.eqb_spec x i) as [->|Nx]; [rewrite fup_eq, orb_true_r; auto|]. rewrite fup_ne, orb_false_r by auto. apply R.
        - repeat split; auto.
        - intros x Hx. rewrite in_app_iff in Hx. simpl in Hx. rewrite fup_ne by (intros ->; tauto). apply R. tauto.
        - intros x Hx Vx. destruct (Z.eq_dec x i) as [->|Nx]; [rewrite fup_eq; lia|]. rewrite fup_ne by auto.
          apply in_app_iff in Hx. destruct Hx as [Hx|[->|[]]]; [|congruence]. pose proof (rs_dr _ _ _ R x Hx Vx). lia.
        - rewrite FE. apply cells_app. split; [apply cells_fup; [lia|apply R]|]. simpl. rewrite fup_eq. auto.
        - intros q Hq. rewrite FE, zlen_app in Hq. change (zlen [i]) with 1 in Hq. rewrite fup_ne by lia. apply R. lia.
        - apply (HL_cons n w); auto; vs; intros.
          + rewrite fup_eq; auto.
          + rewrite fup_ne; auto.
          + rewrite fup_eq; auto.
          + rewrite fup_ne; auto.
          + rewrite fup_eq; auto.
          + rewrite fup_ne; [apply (L2 x r0); auto|]. intros ->. apply (Fr deg). rewrite H2. left; auto.
          + rewrite fup_ne; auto.
        - intros x k. destruct (Z.eq_dec k deg) as [->|Nk].
          + rewrite lset_eq. simpl. rewrite (rs_dl _ _ _ R), in_app_iff. simpl. destruct (Z.eq_dec x i) as [->|Nx]; [rewrite fup_eq; tauto|]. rewrite fup_ne by auto.
            assert (i <> x) by congruence. tauto.
          + rewrite lset_ne by auto. rewrite (rs_dl _ _ _ R), in_app_iff. simpl. destruct (Z.eq_dec x i) as [->|Nx].
            * rewrite fup_eq. pose proof (Fr k) as F. rewrite (rs_dl _ _ _ R) in F. assert (deg <> k) by congruence. tauto.
            * rewrite fup_ne by auto. assert (i <> x) by congruence. tauto.
        - pose proof (rs_md _ _ _ R). lia. }
      destruct (dl' deg) as [|y r'] eqn:Edl.
      * assert (X : hd = EMPTY) by (unfold hd; auto). rewrite X at 1. rewrite Z.eqb_refl. simpl negb. cbv iota. wb. wok.
        apply (Fin s1 (vLast w)); [|auto|intros; discriminate]. destruct w; exact V1.
      * assert (X : hd = y) by (unfold hd; auto). assert (Ry : 0 <= y < n) by (apply (hl_rng _ _ _ _ HL0 deg); left; rewrite Edl; left; auto).
        destruct (Z.eqb_spec hd EMPTY) as [Y|Y]; [rewrite EMPTY_val in Y; lia|]. simpl negb. cbv iota. wb. rewrite X at 1.
        eapply wLast; [exact V1|lia|]. intros s2 V2. vs. apply (Fin s2 (fup (vLast w) y i)); auto.
        -- intros x [Nx|Nx]; [apply fup_ne; congruence|discriminate].
        -- intros x rr Eq. injection Eq as <- _. apply fup_eq.
    + destruct Hk as [[Vi Ni]|Z0]; [lia|]. assert (Enz : nz i = false) by (unfold nz; rewrite Z0; auto). rewrite Enz in FE.
      wok. rewrite FE. split; auto. exists w, dl'. split; auto. destruct R. constructor; auto; rewrite ?FE; auto.
      * intros x. rewrite Inb. destruct (Z.eqb_spec x i) as [->|Nx]; [|rewrite orb_false_r; auto]. rewrite orb_true_r, rs_nv0, (inb_out _ _ Nd). lia.
      * intros x Hx. apply rs_dg0. rewrite in_app_iff in Hx. tauto.
      * intros x Hx Vx. apply in_app_iff in Hx. destruct Hx as [Hx|[->|[]]]; auto. destruct Vx; tauto.
      * intros x k. rewrite rs_dl0, in_app_iff. simpl. split; [tauto|]. intros [X|[[X|[->|[]]] [Y Z]]]; auto. destruct Y; tauto.
  - intros [p s'] [-> [w [dl' [Vs' R]]]]. eapply HQ; eauto.
Qed.

Lemma restore_finalize_ok s elenme (Q : ast -> Prop) : Vw s v -> 1 <= vwf v -> wb = vwf v -> vDeg v me = D -> D <= vle v ->
  (elenme = 0 \/ vPe v me + zlen Lm = vpf v) ->
  (forall s' v' dl', Vw s' v' -> INV n iwlen pf0 (-1) [] [] 0 0 (vwf v') v' (lset C me L') E V rep dl' (fun _ => []) -> vwf v' = vwf v -> vnel v' = vnel v -> Q s') ->
  wp ('(p, s) <- restore n (vPe v me) (vPe v me + zlen Lm - 1) D s ;; finalize me (vPe v me) p nvp elenme s) Q.
Proof.
  intros Vs Wf Ew EDm EDl Hel HQ. wb. apply restore_ok; auto. intros s' w dl' V1 R. destruct re_me as [Em [EC [Nm [Rm Pm]]]].
  destruct (rs_fr _ _ _ R) as [F1 [F2 [F3 [F4 [F5 [F6 [F7 [F8 F9]]]]]]]].
  unfold finalize. aw s2 V2. aw s3 V3. ard. rewrite fup_eq. replace (vPe v me + zlen L' - vPe v me) with (zlen L') in * by lia.
  assert (Fin : forall s' pe w', Vw s' (uW (uPe (uLen (uNv w (fup (vNv w) me nvp)) (fup (vLen w) me (zlen L'))) pe) w') ->
    (forall x, x <> me -> pe x = vPe v x) -> pe me = (if zlen L' =? 0 then EMPTY else vPe v me) ->
    (forall x, x <> me -> w' x = vW v x) -> w' me = (if zlen L' =? 0 then 0 else vW v me) ->
    Q (if negb (elenme =? 0) then s' <| pfree := vPe v me + zlen L' |> else s')).
  { intros s4 pe w' V4 P1 P2 W1 W2.
    assert (K : exists pf, Vw (if negb (elenme =? 0) then s4 <| pfree := vPe v me + zlen L' |> else s4)
                  (upf (uW (uPe (uLen (uNv w (fup (vNv w) me nvp)) (fup (vLen w) me (zlen L'))) pe) w') pf) /\
                  (pf = vpf v \/ (vPe v me + zlen Lm = vpf v /\ pf = vPe v me + zlen L'))).
    { destruct (Z.eqb_spec elenme 0) as [Ee|Ee]; simpl negb; cbv iota.
      - exists (vpf w). split; [destruct w; exact V4|auto].
      - exists (vPe v me + zlen L'). split; [apply Spf; auto|]. destruct Hel; [tauto|auto]. }
    destruct K as [pf [V5 Hpf]].
    assert (NmL : ~ In me Lm) by (intros X; apply re_Lm in X; tauto).
    apply (HQ _ _ dl' V5); auto. apply fi_INV; auto; vs.
    - rewrite fup_eq; auto.
    - intros x Hx Nx. rewrite fup_ne by auto. rewrite (rs_nv _ _ _ R). destruct (inb_spec x Lm); auto. pose proof (re_abs x Hx Nx n0). lia.
    - intros x Nx. rewrite fup_ne by auto. congruence.
    - rewrite fup_eq; auto.
    - apply R.
    - apply R.
    - intros x Hx. apply R; auto.
    - intros x Hx Vx. apply R; auto.
    - apply (HL_frame n w); auto. apply R.
    - intros x k. rewrite (rs_dl _ _ _ R), (d_dl _ _ _ _ _ D0). split.
      + intros [[A [B X]]|[A [B X]]]; auto. split; auto. rewrite (rs_dg _ _ _ R); auto. intros Y. pose proof (g_Lneg _ _ _ _ _ _ _ _ G0 x A Y). lia.
      + intros [A X]. destruct (in_dec Z.eq_dec x Lm) as [Y|Y]; auto. left. rewrite (rs_dg _ _ _ R) in X by auto. split; auto. split; auto.
        assert (Nx : x <> me) by (intros ->; exact (var_elt _ _ _ A Em)). pose proof (re_abs x ltac:(apply A) Nx Y). destruct A as [_ [A _]]. lia.
    - pose proof (rs_md _ _ _ R). split; [lia|]. intros x Vx. destruct (in_dec Z.eq_dec x Lm) as [Y|Y]; [apply R; auto|]. rewrite (rs_dg _ _ _ R) by auto.
      assert (Nx : x <> me) by (intros ->; exact (var_elt _ _ _ Vx Em)). pose proof (re_abs x ltac:(apply Vx) Nx Y).
      pose proof (proj2 (d_md _ _ _ _ _ D0) x Vx ltac:(destruct Vx as [_ [? _]]; lia)). lia.
    - intros x Hx. rewrite F7. rewrite <- Ew. apply I0; auto. }
  destruct (Z.eqb_spec (zlen L') 0) as [Z0|Z0].
  - wb. aw s4 V4. awl s5 V5. wok. apply (Fin _ _ _ V5).
    + intros x Nx. rewrite fup_ne, F1; auto.
    + apply fup_eq.
    + intros x Nx. rewrite fup_ne, F4; auto.
    + apply fup_eq.
  - wb. wok. wok. apply (Fin s3 (vPe w) (vW w)); try congruence. destruct w; exact V3.
Qed.
End Restore.
