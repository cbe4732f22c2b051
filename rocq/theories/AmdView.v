(** The state of AMD_2 seen as functions: array contents and scalars. *)
From Coq Require Import ZArith List Lia Bool.
From RecordUpdate Require Import RecordUpdate.
From Verif Require Import Res Lists MAmd AmdBase.
Import ListNotations.
Open Scope Z_scope.
Open Scope res_scope.

Record vw : Type := mkVw {
  vPe : Z -> Z; vIw : Z -> Z; vLen : Z -> Z; vNv : Z -> Z; vNext : Z -> Z; vLast : Z -> Z; vHead : Z -> Z; vElen : Z -> Z;
  vDeg : Z -> Z; vW : Z -> Z;
  vhi : Z; vpf : Z; vnel : Z; vmd : Z; vwf : Z; vle : Z; vnd : Z
}.

Definition uPe (v : vw) (x : Z -> Z) : vw := mkVw x (vIw v) (vLen v) (vNv v) (vNext v) (vLast v) (vHead v) (vElen v) (vDeg v) (vW v) (vhi v) (vpf v) (vnel v) (vmd v) (vwf v) (vle v) (vnd v).
Definition uLen (v : vw) (x : Z -> Z) : vw := mkVw (vPe v) (vIw v) x (vNv v) (vNext v) (vLast v) (vHead v) (vElen v) (vDeg v) (vW v) (vhi v) (vpf v) (vnel v) (vmd v) (vwf v) (vle v) (vnd v).
Definition uNv (v : vw) (x : Z -> Z) : vw := mkVw (vPe v) (vIw v) (vLen v) x (vNext v) (vLast v) (vHead v) (vElen v) (vDeg v) (vW v) (vhi v) (vpf v) (vnel v) (vmd v) (vwf v) (vle v) (vnd v).
Definition uNext (v : vw) (x : Z -> Z) : vw := mkVw (vPe v) (vIw v) (vLen v) (vNv v) x (vLast v) (vHead v) (vElen v) (vDeg v) (vW v) (vhi v) (vpf v) (vnel v) (vmd v) (vwf v) (vle v) (vnd v).
Definition uLast (v : vw) (x : Z -> Z) : vw := mkVw (vPe v) (vIw v) (vLen v) (vNv v) (vNext v) x (vHead v) (vElen v) (vDeg v) (vW v) (vhi v) (vpf v) (vnel v) (vmd v) (vwf v) (vle v) (vnd v).
Definition uHead (v : vw) (x : Z -> Z) : vw := mkVw (vPe v) (vIw v) (vLen v) (vNv v) (vNext v) (vLast v) x (vElen v) (vDeg v) (vW v) (vhi v) (vpf v) (vnel v) (vmd v) (vwf v) (vle v) (vnd v).
Definition uElen (v : vw) (x : Z -> Z) : vw := mkVw (vPe v) (vIw v) (vLen v) (vNv v) (vNext v) (vLast v) (vHead v) x (vDeg v) (vW v) (vhi v) (vpf v) (vnel v) (vmd v) (vwf v) (vle v) (vnd v).
Definition uDeg (v : vw) (x : Z -> Z) : vw := mkVw (vPe v) (vIw v) (vLen v) (vNv v) (vNext v) (vLast v) (vHead v) (vElen v) x (vW v) (vhi v) (vpf v) (vnel v) (vmd v) (vwf v) (vle v) (vnd v).
Definition uW (v : vw) (x : Z -> Z) : vw := mkVw (vPe v) (vIw v) (vLen v) (vNv v) (vNext v) (vLast v) (vHead v) (vElen v) (vDeg v) x (vhi v) (vpf v) (vnel v) (vmd v) (vwf v) (vle v) (vnd v).
Definition uIw (v : vw) (f : Z -> Z) (h : Z) : vw := mkVw (vPe v) f (vLen v) (vNv v) (vNext v) (vLast v) (vHead v) (vElen v) (vDeg v) (vW v) h (vpf v) (vnel v) (vmd v) (vwf v) (vle v) (vnd v).
Definition upf (v : vw) (x : Z) : vw := mkVw (vPe v) (vIw v) (vLen v) (vNv v) (vNext v) (vLast v) (vHead v) (vElen v) (vDeg v) (vW v) (vhi v) x (vnel v) (vmd v) (vwf v) (vle v) (vnd v).
Definition unel (v : vw) (x : Z) : vw := mkVw (vPe v) (vIw v) (vLen v) (vNv v) (vNext v) (vLast v) (vHead v) (vElen v) (vDeg v) (vW v) (vhi v) (vpf v) x (vmd v) (vwf v) (vle v) (vnd v).
Definition umd (v : vw) (x : Z) : vw := mkVw (vPe v) (vIw v) (vLen v) (vNv v) (vNext v) (vLast v) (vHead v) (vElen v) (vDeg v) (vW v) (vhi v) (vpf v) (vnel v) x (vwf v) (vle v) (vnd v).
Definition uwf (v : vw) (x : Z) : vw := mkVw (vPe v) (vIw v) (vLen v) (vNv v) (vNext v) (vLast v) (vHead v) (vElen v) (vDeg v) (vW v) (vhi v) (vpf v) (vnel v) (vmd v) x (vle v) (vnd v).
Definition ule (v : vw) (x : Z) : vw := mkVw (vPe v) (vIw v) (vLen v) (vNv v) (vNext v) (vLast v) (vHead v) (vElen v) (vDeg v) (vW v) (vhi v) (vpf v) (vnel v) (vmd v) (vwf v) x (vnd v).
Definition und (v : vw) (x : Z) : vw := mkVw (vPe v) (vIw v) (vLen v) (vNv v) (vNext v) (vLast v) (vHead v) (vElen v) (vDeg v) (vW v) (vhi v) (vpf v) (vnel v) (vmd v) (vwf v) (vle v) x.

(** Reduce projections of updated views. *)
Ltac vs := cbn [vPe vIw vLen vNv vNext vLast vHead vElen vDeg vW vhi vpf vnel vmd vwf vle vnd uPe uIw uLen uNv uNext uLast uHead uElen uDeg uW upf unel umd uwf ule und] in *.

Section View.
Variables (n iwlen : Z).

Record Vw (s : ast) (v : vw) : Prop := mkVwP {
  V_Pe : is_vec (aPe s) n (vPe v);
  V_Len : is_vec (aLen s) n (vLen v);
  V_Nv : is_vec (aNv s) n (vNv v);
  V_Next : is_vec (aNext s) n (vNext v);
  V_Last : is_vec (aLast s) n (vLast v);
  V_Head : is_vec (aHead s) n (vHead v);
  V_Elen : is_vec (aElen s) n (vElen v);
  V_Deg : is_vec (aDeg s) n (vDeg v);
  V_W : is_vec (aW s) n (vW v);
  V_Iw : is_pre (aIw s) iwlen (vhi v) (vIw v);
  V_pf : pfree s = vpf v;
  V_nel : nel s = vnel v;
  V_md : mindeg s = vmd v;
  V_wf : wflg s = vwf v;
  V_le : lemax s = vle v;
  V_nd : ndense s = vnd v
}.

Lemma rPe s v i (Q : Z -> Prop) : Vw s v -> 0 <= i < n -> Q (vPe v i) -> wp (rd (aPe s) i) Q.
Proof. intros H. apply is_vec_rd. apply H. Qed.
Lemma wPe s v i x (Q : ast -> Prop) : Vw s v -> 0 <= i < n ->
  (forall s', Vw s' (uPe v (fup (vPe v) i x)) -> Q s') -> wp (sPe s i x) Q.
Proof.
  intros H Hi HQ. unfold sPe. wb. apply (is_vec_wr _ _ _ _ _ _ (V_Pe _ _ H) Hi). intros a' HV. wok. apply HQ.
  destruct H. constructor; auto.
Qed.
Lemma rLen s v i (Q : Z -> Prop) : Vw s v -> 0 <= i < n -> Q (vLen v i) -> wp (rd (aLen s) i) Q.
Proof. intros H. apply is_vec_rd. apply H. Qed.
Lemma wLen s v i x (Q : ast -> Prop) : Vw s v -> 0 <= i < n ->
  (forall s', Vw s' (uLen v (fup (vLen v) i x)) -> Q s') -> wp (sLen s i x) Q.
Proof.
  intros H Hi HQ. unfold sLen. wb. apply (is_vec_wr _ _ _ _ _ _ (V_Len _ _ H) Hi). intros a' HV. wok. apply HQ.
  destruct H. constructor; auto.
Qed.
Lemma rNv s v i (Q : Z -> Prop) : Vw s v -> 0 <= i < n -> Q (vNv v i) -> wp (rd (aNv s) i) Q.
Proof. intros H. apply is_vec_rd. apply H. Qed.
Lemma wNv s v i x (Q : ast -> Prop) : Vw s v -> 0 <= i < n ->
  (forall s', Vw s' (uNv v (fup (vNv v) i x)) -> Q s') -> wp (sNv s i x) Q.
Proof.
  intros H Hi HQ. unfold sNv. wb. apply (is_vec_wr _ _ _ _ _ _ (V_Nv _ _ H) Hi). intros a' HV. wok. apply HQ.
  destruct H. constructor; auto.
Qed.
Lemma rNext s v i (Q : Z -> Prop) : Vw s v -> 0 <= i < n -> Q (vNext v i) -> wp (rd (aNext s) i) Q.
Proof. intros H. apply is_vec_rd. apply H. Qed.
Lemma wNext s v i x (Q : ast -> Prop) : Vw s v -> 0 <= i < n ->
  (forall s', Vw s' (uNext v (fup (vNext v) i x)) -> Q s') -> wp (sNext s i x) Q.
Proof.
  intros H Hi HQ. unfold sNext. wb. apply (is_vec_wr _ _ _ _ _ _ (V_Next _ _ H) Hi). intros a' HV. wok. apply HQ.
  destruct H. constructor; auto.
Qed.
Lemma rLast s v i (Q : Z -> Prop) : Vw s v -> 0 <= i < n -> Q (vLast v i) -> wp (rd (aLast s) i) Q.
Proof. intros H. apply is_vec_rd. apply H. Qed.
Lemma wLast s v i x (Q : ast -> Prop) : Vw s v -> 0 <= i < n ->
  (forall s', Vw s' (uLast v (fup (vLast v) i x)) -> Q s') -> wp (sLast s i x) Q.
Proof.
  intros H Hi HQ. unfold sLast. wb. apply (is_vec_wr _ _ _ _ _ _ (V_Last _ _ H) Hi). intros a' HV. wok. apply HQ.
  destruct H. constructor; auto.
Qed.
Lemma rHead s v i (Q : Z -> Prop) : Vw s v -> 0 <= i < n -> Q (vHead v i) -> wp (rd (aHead s) i) Q.
Proof. intros H. apply is_vec_rd. apply H. Qed.
Lemma wHead s v i x (Q : ast -> Prop) : Vw s v -> 0 <= i < n ->
  (forall s', Vw s' (uHead v (fup (vHead v) i x)) -> Q s') -> wp (sHead s i x) Q.
Proof.
  intros H Hi HQ. unfold sHead. wb. apply (is_vec_wr _ _ _ _ _ _ (V_Head _ _ H) Hi). intros a' HV. wok. apply HQ.
  destruct H. constructor; auto.
Qed.
Lemma rElen s v i (Q : Z -> Prop) : Vw s v -> 0 <= i < n -> Q (vElen v i) -> wp (rd (aElen s) i) Q.
Proof. intros H. apply is_vec_rd. apply H. Qed.
Lemma wElen s v i x (Q : ast -> Prop) : Vw s v -> 0 <= i < n ->
  (forall s', Vw s' (uElen v (fup (vElen v) i x)) -> Q s') -> wp (sElen s i x) Q.
Proof.
  intros H Hi HQ. unfold sElen. wb. apply (is_vec_wr _ _ _ _ _ _ (V_Elen _ _ H) Hi). intros a' HV. wok. apply HQ.
  destruct H. constructor; auto.
Qed.
Lemma rDeg s v i (Q : Z -> Prop) : Vw s v -> 0 <= i < n -> Q (vDeg v i) -> wp (rd (aDeg s) i) Q.
Proof. intros H. apply is_vec_rd. apply H. Qed.
Lemma wDeg s v i x (Q : ast -> Prop) : Vw s v -> 0 <= i < n ->
  (forall s', Vw s' (uDeg v (fup (vDeg v) i x)) -> Q s') -> wp (sDeg s i x) Q.
Proof.
  intros H Hi HQ. unfold sDeg. wb. apply (is_vec_wr _ _ _ _ _ _ (V_Deg _ _ H) Hi). intros a' HV. wok. apply HQ.
  destruct H. constructor; auto.
Qed.
Lemma rW s v i (Q : Z -> Prop) : Vw s v -> 0 <= i < n -> Q (vW v i) -> wp (rd (aW s) i) Q.
Proof. intros H. apply is_vec_rd. apply H. Qed.
Lemma wW s v i x (Q : ast -> Prop) : Vw s v -> 0 <= i < n ->
  (forall s', Vw s' (uW v (fup (vW v) i x)) -> Q s') -> wp (sW s i x) Q.
Proof.
  intros H Hi HQ. unfold sW. wb. apply (is_vec_wr _ _ _ _ _ _ (V_W _ _ H) Hi). intros a' HV. wok. apply HQ.
  destruct H. constructor; auto.
Qed.
Lemma rIw s v i (Q : Z -> Prop) : Vw s v -> 0 <= i < vhi v -> Q (vIw v i) -> wp (rd (aIw s) i) Q.
Proof. intros H. eapply is_pre_rd. apply H. Qed.
Lemma wIw s v i x (Q : ast -> Prop) : Vw s v -> 0 <= i < iwlen -> i <= vhi v ->
  (forall s', Vw s' (uIw v (fup (vIw v) i x) (Z.max (vhi v) (i + 1))) -> Q s') -> wp (sIw s i x) Q.
Proof.
  intros H Hi Hh HQ. unfold sIw. wb. apply (is_pre_wr _ _ _ _ _ _ _ (V_Iw _ _ H) Hi Hh). intros a' HV. wok. apply HQ.
  destruct H. constructor; auto.
Qed.
Lemma wIw_old s v i x (Q : ast -> Prop) : Vw s v -> 0 <= i < vhi v ->
  (forall s', Vw s' (uIw v (fup (vIw v) i x) (vhi v)) -> Q s') -> wp (sIw s i x) Q.
Proof.
  intros H Hi HQ. assert (Hl : i < iwlen).
  { destruct (V_Iw _ _ H) as [L R]. rewrite <- L. apply (rd_ok_range _ _ _ (R i Hi)). }
  apply (wIw s v); auto; [lia|lia|]. rewrite Z.max_l by lia. auto.
Qed.
Lemma Vw_hi s v : Vw s v -> vhi v <= Z.max 0 iwlen.
Proof.
  intros H. destruct (V_Iw _ _ H) as [L R]. destruct (Z.le_gt_cases (vhi v) 0); [lia|].
  pose proof (rd_ok_range _ _ _ (R (vhi v - 1) ltac:(lia))). lia.
Qed.
Lemma Spf s v x : Vw s v -> Vw (s <| pfree := x |>) (upf v x).
Proof. intros H. destruct H. constructor; auto. Qed.
Lemma Snel s v x : Vw s v -> Vw (s <| nel := x |>) (unel v x).
Proof. intros H. destruct H. constructor; auto. Qed.
Lemma Smd s v x : Vw s v -> Vw (s <| mindeg := x |>) (umd v x).
Proof. intros H. destruct H. constructor; auto. Qed.
Lemma Swf s v x : Vw s v -> Vw (s <| wflg := x |>) (uwf v x).
Proof. intros H. destruct H. constructor; auto. Qed.
Lemma Sle s v x : Vw s v -> Vw (s <| lemax := x |>) (ule v x).
Proof. intros H. destruct H. constructor; auto. Qed.
Lemma Snd s v x : Vw s v -> Vw (s <| ndense := x |>) (und v x).
Proof. intros H. destruct H. constructor; auto. Qed.
End View.

(** Read, write and loop steps. *)
Ltac ard := wb; first [ eapply rPe; [eassumption|vs; try lia|vs] | eapply rIw; [eassumption|vs; try lia|vs] | eapply rLen; [eassumption|vs; try lia|vs] | eapply rNv; [eassumption|vs; try lia|vs] | eapply rNext; [eassumption|vs; try lia|vs] | eapply rLast; [eassumption|vs; try lia|vs] | eapply rHead; [eassumption|vs; try lia|vs] | eapply rElen; [eassumption|vs; try lia|vs] | eapply rDeg; [eassumption|vs; try lia|vs] | eapply rW; [eassumption|vs; try lia|vs] ].
Ltac aw s V := wb; first [ eapply wPe; [eassumption|vs; try lia|intros s V; vs] | eapply wLen; [eassumption|vs; try lia|intros s V; vs] | eapply wNv; [eassumption|vs; try lia|intros s V; vs] | eapply wNext; [eassumption|vs; try lia|intros s V; vs] | eapply wLast; [eassumption|vs; try lia|intros s V; vs] | eapply wHead; [eassumption|vs; try lia|intros s V; vs] | eapply wElen; [eassumption|vs; try lia|intros s V; vs] | eapply wDeg; [eassumption|vs; try lia|intros s V; vs] | eapply wW; [eassumption|vs; try lia|intros s V; vs] | eapply wIw_old; [eassumption|vs; try lia|intros s V; vs] ].
Ltac awl s V := first [ eapply wPe; [eassumption|vs; try lia|intros s V; vs] | eapply wLen; [eassumption|vs; try lia|intros s V; vs] | eapply wNv; [eassumption|vs; try lia|intros s V; vs] | eapply wNext; [eassumption|vs; try lia|intros s V; vs] | eapply wLast; [eassumption|vs; try lia|intros s V; vs] | eapply wHead; [eassumption|vs; try lia|intros s V; vs] | eapply wElen; [eassumption|vs; try lia|intros s V; vs] | eapply wDeg; [eassumption|vs; try lia|intros s V; vs] | eapply wW; [eassumption|vs; try lia|intros s V; vs] | eapply wIw_old; [eassumption|vs; try lia|intros s V; vs] ].

(** Lists stored in consecutive cells. *)
Fixpoint cells (iw : Z -> Z) (p : Z) (l : list Z) : Prop :=
  match l with
  | [] => True
  | x :: l => iw p = x /\ cells iw (p + 1) l
  end.

Lemma cells_app iw p l1 l2 : cells iw p (l1 ++ l2) <-> cells iw p l1 /\ cells iw (p + zlen l1) l2.
Proof.
  revert p. induction l1 as [|x l1 IH]; intros p; simpl.
  - change (zlen (@nil Z)) with 0. rewrite Z.add_0_r. tauto.
  - rewrite IH, zlen_cons. replace (p + 1 + zlen l1) with (p + (zlen l1 + 1)) by lia. tauto.
Qed.

Lemma cells_ext iw iw' p l : (forall q, p <= q < p + zlen l -> iw' q = iw q) -> cells iw p l -> cells iw' p l.
Proof.
  revert p. induction l as [|x l IH]; intros p H; simpl; auto. rewrite zlen_cons in H. pose proof (zlen_nonneg l).
  intros [E C]. split; [rewrite H by lia; auto|]. apply IH; auto. intros q Hq. apply H. lia.
Qed.

Lemma cells_fup iw p l q x : ~ (p <= q < p + zlen l) -> cells iw p l -> cells (fup iw q x) p l.
Proof. intros H. apply cells_ext. intros r Hr. apply fup_ne. intros ->. tauto. Qed.

Lemma cells_nth iw p l k d : cells iw p l -> (k < length l)%nat -> iw (p + Z.of_nat k) = nth k l d.
Proof.
  revert p k. induction l as [|x l IH]; intros p k C Hk; simpl in Hk; [lia|]. destruct C as [E C]. destruct k.
  - simpl. rewrite <- E. f_equal. lia.
  - simpl. rewrite <- (IH _ _ C) by lia. f_equal. lia.
Qed.

Lemma cells_in iw p l x : cells iw p l -> In x l -> exists q, p <= q < p + zlen l /\ iw q = x.
Proof.
  intros C H. destruct (In_nth _ _ 0 H) as [k [Hk E]]. exists (p + Z.of_nat k). unfold zlen. split; [lia|].
  rewrite (cells_nth _ _ _ _ 0 C Hk). auto.
Qed.

Lemma cells_of iw p m : 0 <= m -> cells iw p (map iw (zr p (p + m))) /\ zlen (map iw (zr p (p + m))) = m.
Proof.
  intros Hm. rewrite zlen_map, zlen_zr. split; [|lia]. revert p.
  remember (Z.to_nat m) as k eqn:Ek. revert m Hm Ek. induction k as [|k IH]; intros m Hm Ek p.
  - replace m with 0 by lia. rewrite zr_nil by lia. exact I.
  - rewrite zr_cons by lia. simpl. split; auto. replace (p + m) with (p + 1 + (m - 1)) by lia. apply IH; lia.
Qed.

(** A loop over the cells of a list. *)
Lemma wp_for_list {S} (l : list Z) (Inv : list Z -> list Z -> S -> Prop) lo hi (body : Z -> S -> res S) s (Q : S -> Prop) :
  hi = lo + zlen l -> Inv [] l s ->
  (forall d x r s, l = d ++ x :: r -> Inv d (x :: r) s -> wp (body (lo + zlen d) s) (Inv (d ++ [x]) r)) ->
  (forall s, Inv l [] s -> Q s) -> wp (for_ lo hi body s) Q.
Proof.
  intros -> H0 Hs HQ.
  apply (wp_for_le (fun i s => exists d r, l = d ++ r /\ i = lo + zlen d /\ Inv d r s)).
  - pose proof (zlen_nonneg l). lia.
  - exists [], l. split; auto. split; auto. change (zlen (@nil Z)) with 0. lia.
  - intros i s' Hi [d [r [E [Ei HI]]]]. destruct r as [|x r].
    + rewrite app_nil_r in E. subst. lia.
    + subst i. eapply wp_mono; [apply Hs; [exact E|exact HI]|]. intros s2 H2. exists (d ++ [x]), r.
      rewrite <- app_assoc. split; auto. split; auto. rewrite zlen_app, zlen_cons. change (zlen (@nil Z)) with 0. lia.
  - intros s' [d [r [E [Ei HI]]]]. assert (r = []).
    { destruct r; auto. exfalso. rewrite E, zlen_app, zlen_cons in Ei. pose proof (zlen_nonneg r). lia. }
    subst r. rewrite app_nil_r in E. subst d. auto.
Qed.
