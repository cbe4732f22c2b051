(** One elimination and the main loop of AMD_2, src/amd_2.c:698-1553. *)
From Coq Require Import ZArith List Lia Bool.
From RecordUpdate Require Import RecordUpdate.
From Verif Require Import Res Lists MAmd AmdBase AmdView AmdLists AmdGc AmdInv AmdBuild AmdAsm AmdScan1 AmdScan2 AmdDetect AmdRestore.
Import ListNotations.
Open Scope Z_scope.
Open Scope res_scope.

Section Pivot.
Variables (n iwlen pf0 : Z) (aggressive : bool).
Notation Vw := (Vw n iwlen).
Notation var := (var n).
Notation elt := (elt n).

(** The invariant at the head of the loop. *)
Definition LOOP (v : vw) : Prop :=
  exists C E V rep dl, INV n iwlen pf0 (-1) [] [] 0 0 (vwf v) v C E V rep dl (fun _ => []) /\ 1 <= vwf v.

Lemma after_assembly s v C E V rep dl me Lm nvp D f elenme (Q : ast -> Prop) :
  Vw s v -> INV n iwlen pf0 me Lm Lm nvp D f v C E V rep dl (fun _ => []) -> 0 <= me -> 2 <= f -> vwf v = f ->
  (forall i, In i Lm -> In me (V i) \/ exists e, In e (E i) /\ vW v e = 0) -> (elenme = 0 \/ vPe v me + zlen Lm = vpf v) ->
  (forall s' v', Vw s' v' -> LOOP v' -> vnel v <= vnel v' -> Q s') ->
  wp (s <- scan1 (vPe v me) (vPe v me + zlen Lm - 1) s ;;
      '(degme, nvpiv, s) <- scan2 n aggressive me (vPe v me) (vPe v me + zlen Lm - 1) (D, nvp, s) ;;
      s <- sDeg s me degme ;;
      let s := s <| lemax := Z.max (lemax s) degme |> in
      s <- clear_flag n (s <| wflg := wflg s + lemax s |>) ;;
      s <- detect n (vPe v me) (vPe v me + zlen Lm - 1) s ;;
      '(p, s) <- restore n (vPe v me) (vPe v me + zlen Lm - 1) degme s ;;
      finalize me (vPe v me) p nvpiv elenme s) Q.
Proof.
  intros Vs I0 Hm Hf Hwf Dr Hel HQ. wb. eapply (scan1_ok n iwlen pf0); [exact I0|auto|auto|exact Vs|]. clear s Vs. intros s1 w V1 Hw.
  wb. eapply (scan2_ok n iwlen pf0 aggressive me Lm f Hm ltac:(lia) s1 (uW v w)); [exact V1| |].
  { eapply S2_entry; eauto. }
  clear s1 V1 Hw. intros s2 v2 nvp2 D2 C2 E2 V2 rep2 hb2 Vs S [K1 [K2 K3]]. vs. clear I0 Dr C E V rep.
  pose proof (s_inv _ _ _ _ _ _ _ _ _ _ _ _ _ _ _ _ _ S) as I2. pose proof (i_g _ _ _ _ _ _ _ _ _ _ _ _ _ _ _ _ I2) as G2.
  destruct (g_me _ _ _ _ _ _ _ _ G2 Hm) as [Em _]. assert (Rm : 0 <= me < n) by apply Em.
  aw s3 V3. cbv zeta.
  assert (V4 : Vw (s3 <| lemax := Z.max (lemax s3) D2 |> <| wflg := wflg (s3 <| lemax := Z.max (lemax s3) D2 |>) + lemax (s3 <| lemax := Z.max (lemax s3) D2 |>) |>)
     (uwf (ule (uDeg v2 (fup (vDeg v2) me D2)) (Z.max (vle v2) D2)) (f + Z.max (vle v2) D2))).
  { rewrite (V_le _ _ _ _ V3). vs. pose proof (Sle _ _ _ _ (Z.max (vle v2) D2) V3) as V4. rewrite (V_le _ _ _ _ V4), (V_wf _ _ _ _ V4). vs.
    rewrite (s_wf _ _ _ _ _ _ _ _ _ _ _ _ _ _ _ _ _ S). apply Swf; auto. }
  assert (D20 : 0 <= D2) by (rewrite (i_dme _ _ _ _ _ _ _ _ _ _ _ _ _ _ _ _ I2); apply wsum_nonneg).
  wb. eapply clear_flag_ok; [lia|exact V4| | |]; vs.
  { intros i Hi. apply (i_w _ _ _ _ _ _ _ _ _ _ _ _ _ _ _ _ I2); auto. }
  { intros _ i Hi. pose proof (i_w _ _ _ _ _ _ _ _ _ _ _ _ _ _ _ _ I2 i Hi). lia. }
  clear V3 V4 Vs s2 s3. intros s5 w5 f5 V5 Hf5 Hw5. vs. clear w.
  match type of V5 with AmdView.Vw _ _ _ ?x => set (v5 := x) in V5 end.
  assert (T : DT n iwlen pf0 me Lm Lm nvp2 D2 v5 C2 E2 V2 rep2 dl hb2).
  { constructor.
    - apply (INV_marks n iwlen pf0 me Lm Hm nvp2 D2 (f + Z.max 0 (vle v2)) v2); try reflexivity; auto; unfold v5; vs.
      + lia.
      + intros x Nx. apply fup_ne; auto.
      + intros x Hx. destruct (Hw5 x Hx) as [A B]. split; auto. destruct (Z.eq_dec (vW v2 x) 0) as [X|X]; [left; rewrite X; apply B; auto|right; lia].
    - unfold v5; vs. lia.
    - intros x Vx Hx. apply (s_E _ _ _ _ _ _ _ _ _ _ _ _ _ _ _ _ _ S); auto.
    - intros x d Hx. destruct (d_hb _ _ _ _ _ (i_d _ _ _ _ _ _ _ _ _ _ _ _ _ _ _ _ I2) x d Hx) as [_ [X _]]. auto.
    - intros x Hx Vx. destruct (s_last _ _ _ _ _ _ _ _ _ _ _ _ _ _ _ _ _ S x) as [A B]; auto. }
  assert (P5 : vPe v5 me = vPe v me) by auto. rewrite <- P5. assert (P6 : vpf v5 = vpf v) by auto. assert (N5 : vnel v <= vnel v5) by auto.
  assert (D5 : vDeg v5 me = D2) by (unfold v5; vs; apply fup_eq). assert (L5 : D2 <= vle v5) by (unfold v5; vs; lia).
  clearbody v5. clear K1 K2 K3 S I2 G2 Em w5 Hw5 v2.
  wb. eapply (detect_ok n iwlen pf0 me Lm Hm s5 v5); [exact V5|exact T|]. clear s5 V5 T rep2 hb2. intros s6 v6 rep6 hb6 V6 T [K1 [K2 K3]] Kf.
  pose proof (dt_inv _ _ _ _ _ _ _ _ _ _ _ _ _ _ _ T) as I6. rewrite <- K1.
  eapply (restore_finalize_ok n iwlen pf0 me Lm nvp2 D2 v6 C2 E2 V2 rep6 dl hb6 (vwf v6) Hm I6); auto.
  - intros d. destruct (hb6 d) as [|x l] eqn:Eq; auto. exfalso. apply (dt_rem _ _ _ _ _ _ _ _ _ _ _ _ _ _ _ T x d). rewrite Eq. left; auto.
  - apply T.
  - rewrite (f_equal (fun t => snd (fst t)) Kf : vDeg v6 = vDeg v5). auto.
  - rewrite (f_equal (fun t => fst (fst t)) Kf : vle v6 = vle v5). auto.
  - rewrite K1, K2, P5, P6. auto.
  - intros s7 v7 dl7 V7 I7 W7 N7. apply (HQ s7 v7); auto; [|lia]. exists (lset C2 me (filter (nz v6) Lm)), E2, V2, rep6, dl7. split; auto. rewrite W7. apply T.
Qed.

Lemma after_build s v0 C E V rep dl me v Lm pme1 elenme (Q : ast -> Prop) :
  INV n iwlen pf0 (-1) [] [] 0 0 (vwf v0) v0 C E V rep dl (fun _ => []) -> 1 <= vwf v0 -> var v0 me -> 0 < vNv v0 me ->
  BR n iwlen v0 C E V me Lm v pme1 -> Vw s v -> (elenme = 0 \/ vpf v = pme1 + zlen Lm) ->
  (forall s' v', Vw s' v' -> LOOP v' -> vnel v0 < vnel v' -> Q s') ->
  wp (s <- sDeg s me (sumz (vNv v0) Lm) ;;
      s <- sPe s me pme1 ;;
      s <- sLen s me (pme1 + zlen Lm - 1 - pme1 + 1) ;;
      s <- sElen s me (FLIP (vNv v0 me + sumz (vNv v0) Lm)) ;;
      s <- clear_flag n s ;;
      s <- scan1 pme1 (pme1 + zlen Lm - 1) s ;;
      '(degme, nvpiv, s) <- scan2 n aggressive me pme1 (pme1 + zlen Lm - 1) (sumz (vNv v0) Lm, vNv v0 me, s) ;;
      s <- sDeg s me degme ;;
      let s := s <| lemax := Z.max (lemax s) degme |> in
      s <- clear_flag n (s <| wflg := wflg s + lemax s |>) ;;
      s <- detect n pme1 (pme1 + zlen Lm - 1) s ;;
      '(p, s) <- restore n pme1 (pme1 + zlen Lm - 1) degme s ;;
      finalize me pme1 p nvpiv elenme s) Q.
Proof.
  intros I0 Wf0 Hme Nm B Vs Hel HQ. assert (Rm : 0 <= me < n) by apply Hme. pose proof (br_gs _ _ _ _ _ _ _ _ _ _ B) as G.
  set (D := sumz (vNv v0) Lm). aw s1 V1. aw s2 V2. aw s3 V3. aw s4 V4.
  replace (pme1 + zlen Lm - 1 - pme1 + 1) with (zlen Lm) in V4 by lia.
  assert (W0 : forall i, 0 <= i < n -> 0 <= vW v i < vwf v).
  { intros i Hi. rewrite (br_w _ _ _ _ _ _ _ _ _ _ B), (gs_wf _ _ _ _ _ G). pose proof (i_w _ _ _ _ _ _ _ _ _ _ _ _ _ _ _ _ I0 i Hi). destruct (inb i (E me)); lia. }
  wb. eapply clear_flag_ok; [lia|exact V4| | |]; vs.
  { intros i Hi. apply W0; auto. }
  { intros _ i Hi. apply W0; auto. }
  intros s5 w f V5 Hf Hw. vs.
  match type of V5 with AmdView.Vw _ _ _ ?x => set (v5 := x) in V5 end.
  destruct (assemble n iwlen pf0 v0 C E V rep dl me I0 Hme Lm v v5 pme1 f D) as [dl5 I5]; try reflexivity; auto.
  assert (P5 : vPe v5 me = pme1) by (unfold v5; vs; apply fup_eq). rewrite <- P5.
  eapply (after_assembly s5 v5 (lset C me Lm) E V rep dl5); try exact I5; auto.
  - lia.
  - apply (am_drop n iwlen pf0 v0 C E V rep dl me I0 Hme Lm v v5 pme1 f); auto.
  - rewrite P5. unfold v5; vs. destruct Hel; auto.
  - intros s' v' V' L' N'. apply (HQ s' v'); auto. unfold v5 in N'. vs. rewrite (gs_nel _ _ _ _ _ G) in N'. lia.
Qed.

Hypothesis Hroom : pf0 + n <= iwlen.

Lemma pivot_ok s v (Q : ast -> Prop) : Vw s v -> LOOP v -> vnel v < n ->
  (forall s' v', Vw s' v' -> LOOP v' -> vnel v < vnel v' -> Q s') -> wp (pivot n iwlen aggressive s) Q.
Proof.
  intros Vs [C [E [V [rep [dl [I0 Wf]]]]]] Hn HQ. unfold pivot.
  pose proof (i_g _ _ _ _ _ _ _ _ _ _ _ _ _ _ _ _ I0) as G0. pose proof (i_d _ _ _ _ _ _ _ _ _ _ _ _ _ _ _ _ I0) as D0.
  assert (Pos : forall x, var v x -> 0 < vNv v x).
  { intros x Vx. destruct (Z_lt_dec (vNv v x) 0) as [L|L]; [|destruct Vx as [_ [X _]]; lia].
    destruct (g_neg _ _ _ _ _ _ _ _ G0 x ltac:(apply Vx) L) as [->|[]]. destruct Vx; lia. }
  assert (Ex : exists x, var v x).
  { destruct (existsb (varb v) (zr 0 n)) eqn:Eb.
    - apply existsb_exists in Eb. destruct Eb as [x [Hx Bx]]. apply in_zr in Hx. exists x. destruct (varb_spec n v x Hx); [auto|discriminate].
    - exfalso. pose proof (i_tot _ _ _ _ _ _ _ _ _ _ _ _ _ _ _ _ I0) as T. rewrite wsum_none in T; [lia|]. intros i Vi. exfalso.
      assert (X : existsb (varb v) (zr 0 n) = true); [|congruence]. apply existsb_exists. exists i. split; [apply in_zr; apply Vi|].
      destruct (varb_spec n v i ltac:(apply Vi)); auto. }
  destruct Ex as [x0 Vx0]. wb. eapply (find_pivot_ok n iwlen s v dl); [exact Vs|apply D0|apply D0| | |].
  { intros d x Hx. apply (d_dl _ _ _ _ _ D0) in Hx. destruct Hx as [Vx [Px <-]]. split; [apply D0; auto|apply D0; auto]. }
  { exists (vDeg v x0), x0. apply (d_dl _ _ _ _ _ D0). auto. }
  clear s Vs. intros me r d s1 la hd' v1 Hd Edl Hlow V1 H1.
  assert (Hme : In me (dl d)) by (rewrite Edl; left; auto). apply (d_dl _ _ _ _ _ D0) in Hme. destruct Hme as [Vme [Pme Dme]].
  assert (Rm : 0 <= me < n) by apply Vme.
  ard. ard. rewrite (V_nel _ _ _ _ V1). vs. pose proof (Snel _ _ _ _ (vnel v + vNv v me) V1) as V2. unfold v1 in V2. vs. aw s3 V3. vs.
  match type of V3 with AmdView.Vw _ _ _ ?x => set (v3 := x) in V3 end. unfold v1. vs.
  destruct (g_var _ _ _ _ _ _ _ _ G0 me Vme) as [EC [EL _]]. rewrite EL.
  assert (G : GS n v me [] v3).
  { constructor; try reflexivity.
    - intros x. unfold v3. vs. simpl. rewrite orb_false_r. unfold fup. destruct (Z.eqb_spec x me) as [->|]; auto.
    - exists (lset dl d r). split; [apply (HL_frame n v1); auto|]. intros x k.
      pose proof (hl_nd _ _ _ _ (d_hl _ _ _ _ _ D0) d) as ND. rewrite app_nil_r, Edl in ND. inversion ND as [|? ? Nr _]; subst.
      destruct (Z.eq_dec k (vDeg v me)) as [->|Nk].
      + rewrite lset_eq. split.
        * intros Hx. assert (X : In x (dl (vDeg v me))) by (rewrite Edl; right; auto). apply (d_dl _ _ _ _ _ D0) in X. split; [tauto|]. split; [intros ->; tauto|]. simpl. tauto.
        * intros [A [B [_ X]]]. assert (Y : In x (dl (vDeg v me))) by (apply (d_dl _ _ _ _ _ D0); auto). rewrite Edl in Y. destruct Y; [congruence|auto].
      + rewrite lset_ne by auto. rewrite (d_dl _ _ _ _ _ D0). split; [|intros [A [B [_ X]]]; auto]. intros [A [B X]]. split; auto. split; [intros ->; congruence|]. auto.
    - unfold v3. vs. pose proof (proj1 (d_md _ _ _ _ _ D0)). split; [lia|]. intros x Vx Nx. destruct (Z_lt_dec (vDeg v x) d) as [L|L]; [|lia]. exfalso.
      assert (Y : In x (dl (vDeg v x))) by (apply (d_dl _ _ _ _ _ D0); auto). rewrite (Hlow _ L) in Y. destruct Y.
    - constructor.
    - intros x []. }
  wb. destruct (Z.eqb_spec (zlen (E me)) 0) as [Z0|Z0].
  - apply zlen_nil_inv in Z0. eapply (in_place_BR n iwlen pf0 v C E V rep dl me I0 Vme s3 v3); try reflexivity; auto.
    intros s4 v4 Lm V4 B P4. eapply after_build; eauto.
    rewrite Z0. left. reflexivity.
  - eapply (build_new_ok n iwlen pf0 v C E V rep dl me I0 Vme Hroom s3 v3); try reflexivity; auto.
    intros s4 v4 Lm pme1 V4 B P4. eapply after_build; eauto.
Qed.

Lemma pivots_ok s v (Q : ast -> Prop) : 0 <= n -> 0 <= vnel v -> Vw s v -> LOOP v ->
  (forall s' v', Vw s' v' -> LOOP v' -> n <= vnel v' -> Q s') -> wp (pivots n iwlen aggressive s) Q.
Proof.
  intros Hn Hne Vs L HQ. unfold pivots.
  apply (wp_while (fun s => exists v, Vw s v /\ LOOP v /\ 0 <= vnel v) (fun s => Z.max 0 (n - nel s))).
  - exists v. auto.
  - rewrite (V_nel _ _ _ _ Vs). unfold fuel. lia.
  - clear s v Hne Vs L. intros s [v [Vs [L Ne]]]. split; [lia|]. rewrite (V_nel _ _ _ _ Vs). wok. destruct (Z.ltb_spec (vnel v) n) as [X|X].
    + eapply pivot_ok; eauto. intros s' v' V' L' N'. split; [exists v'; split; auto; split; auto; lia|]. rewrite (V_nel _ _ _ _ V'). lia.
    + eapply HQ; eauto.
Qed.
End Pivot.
