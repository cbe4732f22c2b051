(** The initialisation of AMD_2, src/amd_2.c:610-692, establishes the invariant of its main loop. *)
From Coq Require Import ZArith List Lia Bool.
From RecordUpdate Require Import RecordUpdate.
From Verif Require Import Res Lists MAmd AmdBase AmdView AmdLists AmdGc AmdInv AmdBuild AmdDetect AmdRestore AmdPivot.
Import ListNotations.
Open Scope Z_scope.
Open Scope res_scope.

Section Init.
Variables (n iwlen pf dense : Z) (N : Z -> list Z) (st iw : Z -> Z).
Notation Vw := (Vw n iwlen).
Hypothesis Hn : 0 <= n.
Hypothesis N_rng : forall v u, 0 <= v < n -> In u (N v) -> 0 <= u < n /\ u <> v.
Hypothesis N_nd : forall v, 0 <= v < n -> NoDup (N v).
Hypothesis N_sym : forall v u, 0 <= v < n -> 0 <= u < n -> In u (N v) -> In v (N u).
Hypothesis st_0 : forall v, 0 <= v < n -> 0 <= st v /\ st v + zlen (N v) <= pf.
Hypothesis st_dis : forall v u, 0 <= v < n -> 0 <= u < n -> v < u -> st v + zlen (N v) <= st u.
Hypothesis Hpf : 0 <= pf <= iwlen.
Hypothesis iw_cells : forall v, 0 <= v < n -> cells iw (st v) (N v).
Hypothesis iw_rng : forall q, 0 <= q < pf -> 0 <= iw q < n.
Hypothesis st_sum : sumz (fun v => zlen (N v)) (zr 0 n) <= pf.

Definition dg (x : Z) : Z := zlen (N x).
Definition kd (x : Z) : Z := if dg x =? 0 then 0 else if dense <? dg x then 1 else 2.
Definition cur (i x : Z) : Z := if x <? i then kd x else 2.

Lemma dg_rng x : 0 <= x < n -> 0 <= dg x < n.
Proof.
  intros Hx. unfold dg. split; [apply zlen_nonneg|].
  assert (ND : NoDup (x :: N x)) by (constructor; [intros X; apply (N_rng x x) in X; tauto|auto]).
  pose proof (NoDup_bounded_length (x :: N x) 0 n ND) as X. rewrite zlen_cons in X.
  specialize (X ltac:(intros y [<-|Hy]; [lia|apply (N_rng x); auto])). lia.
Qed.

Section Lists.
Variables (w0 : Z -> Z) (f : Z).
Hypothesis Hw0 : forall x, 0 <= x < n -> 1 <= w0 x < f.
Hypothesis Hf : 2 <= f.

Record IL (i : Z) (v : vw) (dl : Z -> list Z) : Prop := mkIL {
  il_pe : forall x, 0 <= x < n -> vPe v x = if cur i x =? 2 then st x else -1;
  il_nv : forall x, 0 <= x < n -> vNv v x = if cur i x =? 1 then 0 else 1;
  il_el : forall x, 0 <= x < n -> vElen v x = if cur i x =? 0 then -3 else if cur i x =? 1 then -1 else 0;
  il_w : forall x, 0 <= x < n -> vW v x = if cur i x =? 0 then 0 else w0 x;
  il_len : forall x, 0 <= x < n -> vLen v x = dg x;
  il_dg : forall x, 0 <= x < n -> vDeg v x = dg x;
  il_iw : vIw v = iw /\ vhi v = pf /\ vpf v = pf /\ vmd v = 0 /\ vwf v = f /\ vle v = 0;
  il_nel : vnel v = sumz (fun x => if kd x =? 2 then 0 else 1) (zr 0 i);
  il_hl : HL n v dl (fun _ => []);
  il_dl : forall x d, In x (dl d) <-> 0 <= x < i /\ kd x = 2 /\ dg x = d;
  il_last : forall x, i <= x < n -> vLast v x = EMPTY
}.

Lemma cur_step i x : cur (i + 1) x = if x =? i then kd i else cur i x.
Proof.
  unfold cur. destruct (Z.eqb_spec x i) as [->|Ne]; [destruct (Z.ltb_spec i (i + 1)); [auto|lia]|].
  destruct (Z.ltb_spec x (i + 1)); destruct (Z.ltb_spec x i); auto; lia.
Qed.
Lemma cur_out i x : i <= x -> cur i x = 2.
Proof. intros H. unfold cur. destruct (Z.ltb_spec x i); auto; lia. Qed.

Lemma init_list_ok s v i dl (Q : ast -> Prop) : Vw s v -> IL i v dl -> 0 <= i < n ->
  (forall s' v' dl', Vw s' v' -> IL (i + 1) v' dl' -> Q s') -> wp (init_list dense i s) Q.
Proof.
  intros Vs I Hi HQ. unfold init_list. ard. rewrite (il_dg _ _ _ I) by auto.
  assert (Nel : vnel v + (if kd i =? 2 then 0 else 1) = sumz (fun x => if kd x =? 2 then 0 else 1) (zr 0 (i + 1))).
  { rewrite zr_snoc, sumz_app, (il_nel _ _ _ I) by lia. simpl. lia. }
  assert (NI : forall d', ~ In i (dl d')) by (intros d' X; apply (il_dl _ _ _ I) in X; lia).
  pose proof (cur_out i i ltac:(lia)) as Ci.
  destruct (il_iw _ _ _ I) as [J1 [J2 [J3 [J4 [J5 J6]]]]].
  assert (DL : kd i <> 2 -> forall x d, In x (dl d) <-> 0 <= x < i + 1 /\ kd x = 2 /\ dg x = d).
  { intros K x d. rewrite (il_dl _ _ _ I). split; [intuition lia|]. intros [A [B F]]. split; auto. assert (x <> i) by (intros ->; auto). lia. }
  destruct (Z.eqb_spec (dg i) 0) as [Z0|Z0]; [|destruct (Z.ltb_spec dense (dg i)) as [L|L]].
  - assert (K : kd i = 0) by (unfold kd; rewrite Z0; auto). rewrite K in Nel.
    aw s1 V1. rewrite (V_nel _ _ _ _ V1). vs. pose proof (Snel _ _ _ _ (vnel v + 1) V1) as V2. aw s3 V3. awl s4 V4.
    eapply HQ; [exact V4|]. constructor; vs; try (intros x Hx; rewrite cur_step; unfold fup; destruct (Z.eqb_spec x i) as [->|Nx]; [rewrite ?K|]; try apply I; auto; fail).
    + intros x Hx. rewrite cur_step. destruct (Z.eqb_spec x i) as [->|Nx]; [rewrite K, (il_nv _ _ _ I), Ci by auto; auto|apply I; auto].
    + apply I.
    + apply I.
    + repeat split; auto.
    + auto.
    + apply (HL_frame n v); auto. apply I.
    + apply DL. lia.
    + intros x Hx. apply I. lia.
  - assert (K : kd i = 1). { unfold kd. destruct (Z.eqb_spec (dg i) 0); [lia|]. destruct (Z.ltb_spec dense (dg i)); [auto|lia]. } rewrite K in Nel.
    pose proof (Snd _ _ _ _ (vnd v + 1) Vs) as V0. rewrite (V_nd _ _ _ _ Vs). aw s1 V1. aw s2 V2. rewrite (V_nel _ _ _ _ V2). vs.
    pose proof (Snel _ _ _ _ (vnel v + 1) V2) as V3. awl s4 V4.
    eapply HQ; [exact V4|]. constructor; vs; try (intros x Hx; rewrite cur_step; unfold fup; destruct (Z.eqb_spec x i) as [->|Nx]; [rewrite ?K|]; try apply I; auto; fail).
    + intros x Hx. rewrite cur_step. destruct (Z.eqb_spec x i) as [->|Nx]; [rewrite K, (il_w _ _ _ I), Ci by auto; auto|apply I; auto].
    + apply I.
    + apply I.
    + repeat split; auto.
    + auto.
    + apply (HL_frame n v); auto. apply I.
    + apply DL. lia.
    + intros x Hx. apply I. lia.
  - assert (K : kd i = 2). { unfold kd. destruct (Z.eqb_spec (dg i) 0); [lia|]. destruct (Z.ltb_spec dense (dg i)); [lia|auto]. } rewrite K, Z.add_0_r in Nel.
    assert (Cu : forall x, cur (i + 1) x = cur i x) by (intros x; rewrite cur_step; destruct (Z.eqb_spec x i) as [->|]; congruence).
    apply (link_ok n iwlen s v dl (dg i) i); auto.
    + apply I.
    + apply dg_rng; auto.
    + apply I. lia.
    + intros s' nx la hd' v' Hla V' H'. eapply HQ; [exact V'|]. constructor; auto; unfold v'; vs; try (intros x Hx; rewrite ?Cu; apply I; auto; fail).
      * repeat split; auto.
      * exact H'.
      * intros x d. destruct (Z.eq_dec d (dg i)) as [->|Nd].
        -- rewrite lset_eq. simpl. rewrite (il_dl _ _ _ I). destruct (Z.eq_dec x i) as [->|Nx]; [intuition lia|]. split; [intuition lia|]. intros [A [B F]]. right. split; [lia|auto].
        -- rewrite lset_ne by auto. rewrite (il_dl _ _ _ I). split; [intuition lia|]. intros [A [B F]]. split; auto. assert (x <> i) by congruence. lia.
      * intros x Hx. rewrite Hla; [apply I; lia|]. intros X. apply (il_dl _ _ _ I) in X. lia.
Qed.

(** The invariant. *)
Lemma IL_done v dl : IL n v dl -> INV n iwlen pf (-1) [] [] 0 0 (vwf v) v N (fun _ => []) N (fun i => i) dl (fun _ => []).
Proof.
  intros I. destruct (il_iw _ _ _ I) as [J1 [J2 [J3 [J4 [J5 J6]]]]].
  assert (Cu : forall x, 0 <= x < n -> cur n x = kd x) by (intros x Hx; unfold cur; destruct (Z.ltb_spec x n); [auto|lia]).
  assert (Kd : forall x, kd x = 0 /\ dg x = 0 \/ kd x = 1 /\ dg x <> 0 \/ kd x = 2 /\ dg x <> 0).
  { intros x. unfold kd. destruct (Z.eqb_spec (dg x) 0); auto. destruct (dense <? dg x); auto. }
  assert (F : forall x, 0 <= x < n -> (kd x = 0 /\ vPe v x = -1 /\ vNv v x = 1 /\ vElen v x = -3 /\ vW v x = 0) \/
     (kd x = 1 /\ vPe v x = -1 /\ vNv v x = 0 /\ vElen v x = -1 /\ vW v x = w0 x) \/ (kd x = 2 /\ vPe v x = st x /\ vNv v x = 1 /\ vElen v x = 0 /\ vW v x = w0 x)).
  { intros x Hx. rewrite (il_pe _ _ _ I), (il_nv _ _ _ I), (il_el _ _ _ I), (il_w _ _ _ I), Cu by auto. pose proof (Kd x). destruct H as [[-> _]|[[-> _]|[-> _]]]; simpl; auto 10. }
  assert (Vr : forall x, var n v x <-> 0 <= x < n /\ kd x = 2).
  { intros x. unfold var. split; intros [A B]; split; auto; pose proof (Hw0 x A); destruct (F x A); intuition lia. }
  assert (El : forall x, ~ elt n v x) by (intros x [A B]; destruct (F x A); intuition lia).
  assert (Lv : forall x, 0 <= x < n -> 0 <= vPe v x -> kd x = 2 /\ vPe v x = st x) by (intros x A B; destruct (F x A); intuition lia).
  constructor.
  - constructor; try (intros; exfalso; eapply El; eauto; fail).
    + intros x Hx. unfold kind. pose proof (st_0 x Hx). pose proof (Hw0 x Hx). pose proof (F x Hx). intuition lia.
    + intros x Hx L. pose proof (F x Hx). intuition lia.
    + intros x _ [].
    + intros x Hx L _. rewrite (il_len _ _ _ I) by auto. destruct (Lv x Hx L) as [A B]. pose proof (Kd x). pose proof (dg_rng x Hx). intuition lia.
    + constructor.
    + intros x [].
    + intros x [].
    + intros x Vx. apply Vr in Vx. destruct Vx as [Hx K]. pose proof (F x Hx). split; auto. split; [change (zlen (@nil Z)) with 0; intuition lia|]. split; [constructor|auto].
    + intros x e _ [].
    + intros x j Vx Hj. apply Vr in Vx. destruct Vx as [Hx K]. destruct (N_rng x j Hx Hj) as [A B]. split; auto. split; auto. rewrite Vr.
      assert (dg j <> 0). { pose proof (N_sym x j Hx A Hj) as S. unfold dg. intros X. apply zlen_nil_inv in X. rewrite X in S. destruct S. }
      destruct (F j A) as [Y|[Y|Y]]; [|tauto|tauto]. pose proof (Kd j). intuition lia.
    + intros x j Vx Vj _. apply Vr in Vx, Vj. apply N_sym; tauto.
    + intros x j _ [].
    + intros x Vx. split; [intros []|intros [[] _]].
    + lia.
  - constructor.
    + intros x Hx. apply R_root; auto. pose proof (F x Hx). pose proof (st_0 x Hx). intuition lia.
    + intros x Hx _ L. pose proof (F x Hx). pose proof (st_0 x Hx). intuition lia.
    + auto.
    + auto.
    + intros x Hx _ L. pose proof (F x Hx). pose proof (st_0 x Hx). intuition lia.
    + intros r Hr Nz. unfold size. rewrite sumz_delta; [|apply NoDup_zr|apply in_zr; auto]. destruct (Z.eqb_spec r (-1)); [lia|]. pose proof (F r Hr). intuition lia.
    + intros x Hx _ L. pose proof (F x Hx). pose proof (st_0 x Hx). intuition lia.
  - constructor.
    + apply I.
    + intros x d. rewrite (il_dl _ _ _ I), Vr. split; intros X.
      * destruct X as [A [B X]]. rewrite (il_dg _ _ _ I) by auto. pose proof (F x A). intuition lia.
      * destruct X as [[A B] [_ X]]. rewrite (il_dg _ _ _ I) in X by auto. auto.
    + intros x Vx. apply Vr in Vx. rewrite (il_dg _ _ _ I) by tauto. apply dg_rng; tauto.
    + split; [lia|]. intros x Vx _. apply Vr in Vx. rewrite (il_dg _ _ _ I) by tauto. pose proof (dg_rng x ltac:(tauto)). lia.
    + intros x d [].
  - rewrite J3. constructor.
    + intros x Hx L. apply I; auto.
    + intros x Hx L. rewrite J1. rewrite (proj2 (Lv x Hx L)). auto.
    + intros x Hx L. rewrite (proj2 (Lv x Hx L)), (il_len _ _ _ I) by auto. apply st_0; auto.
    + intros x y Hx Hy Ne L1 L2. rewrite (proj2 (Lv x Hx L1)), (proj2 (Lv y Hy L2)), !(il_len _ _ _ I) by auto.
      destruct (Z_lt_dec x y) as [L|L]; [left; apply st_dis; auto|right; apply st_dis; auto; lia].
    + lia.
    + lia.
    + rewrite J3, J1. auto.
  - unfold used. eapply Z.le_trans; [|exact st_sum]. apply sumz_le. intros x Hx. apply in_zr in Hx. rewrite (il_len _ _ _ I) by auto. fold (dg x). pose proof (dg_rng x Hx).
    destruct (live v x); lia.
  - intros x Hx. rewrite J5. pose proof (F x Hx). pose proof (Hw0 x Hx). intuition lia.
  - rewrite (il_nel _ _ _ I). unfold wsum. assert (Sn : sumz (fun _ => 1) (zr 0 n) = n) by (rewrite sumz_ones, zlen_zr; lia).
    enough (sumz (fun i => if varb v i && true then Z.abs (vNv v i) else 0) (zr 0 n) + sumz (fun x => if kd x =? 2 then 0 else 1) (zr 0 n) = sumz (fun _ => 1) (zr 0 n)) by lia.
    rewrite <- sumz_plus. apply sumz_ext. intros x Hx. apply in_zr in Hx. rewrite andb_true_r. destruct (varb_spec n v x Hx) as [V|V].
    + apply Vr in V. destruct V as [_ K]. rewrite K. pose proof (F x Hx). simpl. intuition lia.
    + destruct (Z.eqb_spec (kd x) 2) as [K|K]; auto. exfalso. apply V. apply Vr. auto.
  - symmetry. apply wsum_none. auto.
  - lia.
Qed.

End Lists.

Lemma init_ok s (Q : ast -> Prop) :
  is_vec (aPe s) n st -> is_vec (aLen s) n dg -> is_pre (aIw s) iwlen pf iw -> pfree s = pf -> nel s = 0 -> mindeg s = 0 -> lemax s = 0 -> ndense s = 0 ->
  zlen (aNv s) = n -> zlen (aNext s) = n -> zlen (aLast s) = n -> zlen (aHead s) = n -> zlen (aElen s) = n -> zlen (aDeg s) = n -> zlen (aW s) = n ->
  (forall s' v', Vw s' v' -> LOOP n iwlen pf v' -> 0 <= vnel v' -> Q s') -> wp (amd2_init n dense s) Q.
Proof.
  intros H1 H2 H3 H4 H5 H6 H7 H8 Z1 Z2 Z3 Z4 Z5 Z6 Z7 HQ. unfold amd2_init. wb.
  apply (wp_for_le (fun i s => is_vec (aPe s) n st /\ is_vec (aLen s) n dg /\ is_pre (aIw s) iwlen pf iw /\ pfree s = pf /\ nel s = 0 /\ mindeg s = 0 /\ lemax s = 0 /\ ndense s = 0 /\
     is_pre (aNv s) n i (fun _ => 1) /\ is_pre (aNext s) n i (fun _ => EMPTY) /\ is_pre (aLast s) n i (fun _ => EMPTY) /\ is_pre (aHead s) n i (fun _ => EMPTY) /\
     is_pre (aElen s) n i (fun _ => 0) /\ is_pre (aDeg s) n i dg /\ is_pre (aW s) n i (fun _ => 1))).
  - lia.
  - do 8 (split; [auto|]). do 6 (split; [apply is_pre_0; auto|]). apply is_pre_0; auto.
  - clear. intros i s Hi [H1 [H2 [H3 [H4 [H5 [H6 [H7 [H8 [P1 [P2 [P3 [P4 [P5 [P6 P7]]]]]]]]]]]]]]. unfold init_one, sLast, sHead, sNext, sNv, sW, sElen, sDeg.
    wb. wb. eapply is_pre_wr_next; [exact P3|lia|reflexivity|]. intros a3 Q3. wok. wb. wb.
    eapply is_pre_wr_next; [exact P4|lia|reflexivity|]. intros a4 Q4. wok. wb. wb.
    eapply is_pre_wr_next; [exact P2|lia|reflexivity|]. intros a2 Q2. wok. wb. wb.
    eapply is_pre_wr_next; [exact P1|lia|reflexivity|]. intros a1 Q1. wok. wb. wb.
    eapply is_pre_wr_next; [exact P7|lia|reflexivity|]. intros a7 Q7. wok. wb. wb.
    eapply is_pre_wr_next; [exact P5|lia|reflexivity|]. intros a5 Q5. wok. wb.
    eapply is_vec_rd; [exact H2|lia|]. wb.
    eapply is_pre_wr_next; [exact P6|lia|reflexivity|]. intros a6 Q6. wok. simpl. do 14 (split; [assumption|]). assumption.
  - clear H1 H2 H3 H4 H5 H6 H7 H8 Z1 Z2 Z3 Z4 Z5 Z6 Z7 s. intros s [H1 [H2 [H3 [H4 [H5 [H6 [H7 [H8 [P1 [P2 [P3 [P4 [P5 [P6 P7]]]]]]]]]]]]]].
    set (v := mkVw st iw dg (fun _ => 1) (fun _ => EMPTY) (fun _ => EMPTY) (fun _ => EMPTY) (fun _ => 0) dg (fun _ => 1) pf pf 0 0 0 0 0).
    assert (Vs : Vw (s <| wflg := 0 |>) v) by (constructor; auto).
    wb. eapply clear_flag_ok; [auto|exact Vs| | |]; vs.
    + intros; unfold v; vs; lia.
    + unfold v; vs; lia.
    + intros s1 w f V1 Hf Hw. clear s H1 H2 H3 H4 H5 H6 H7 H8 P1 P2 P3 P4 P5 P6 P7 Vs.
      assert (W0 : forall x, 0 <= x < n -> 1 <= w x < f) by (intros x Hx; specialize (Hw x Hx); unfold v in Hw; vs; lia).
      apply (wp_for_le (fun i s => exists v dl, Vw s v /\ IL w f i v dl)).
      * lia.
      * exists (uwf (uW v w) f), (fun _ => []). split; auto. constructor; unfold v; vs; auto; try (intros x Hx; rewrite cur_out by lia; auto; fail).
        -- repeat split; auto.
        -- constructor; simpl; try tauto; auto. intros; constructor.
        -- intros x d. split; [intros []|lia].
      * clear s1 V1 HQ. intros i s Hi [v1 [dl [Vs I]]]. apply (init_list_ok w f s v1 i dl); auto. intros s' v' dl' V' I'. exists v', dl'. auto.
      * intros s' [v' [dl' [V' I']]]. apply (HQ s' v'); auto.
        -- exists N, (fun _ => []), N, (fun i => i), dl'. split; [apply (IL_done w f); auto|]. destruct (il_iw _ _ _ _ _ I') as [_ [_ [_ [_ [-> _]]]]]. lia.
        -- rewrite (il_nel _ _ _ _ _ I'). apply sumz_nonneg. intros x _. destruct (kd x =? 2); lia.
Qed.
End Init.
