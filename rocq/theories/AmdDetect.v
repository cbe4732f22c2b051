(** Detection of indistinguishable variables, src/amd_2.c:1303-1437. *)
From Coq Require Import ZArith List Lia Bool.
From RecordUpdate Require Import RecordUpdate.
From Verif Require Import Res Lists MAmd AmdBase AmdView AmdLists AmdGc AmdInv AmdBuild AmdScan1 AmdScan2.
Import ListNotations.
Open Scope Z_scope.
Open Scope res_scope.

Lemma HL_frame n v v' dl hb : HL n v dl hb -> (forall d, 0 <= d < n -> vHead v' d = vHead v d) ->
  (forall d x, In x (dl d) \/ In x (hb d) -> vNext v' x = vNext v x) -> (forall d x, In x (dl d) -> vLast v' x = vLast v x) -> HL n v' dl hb.
Proof.
  intros [h1 h2 h3 h4 h5 h6] E1 E2 E3. constructor; auto.
  - intros d Hd. rewrite E1; auto.
  - intros d Hd. apply (dch_frame (vNext v) (vLast v)); auto. intros x Hx. split; [apply (E2 d); auto|apply (E3 d); auto].
  - intros d Hd. apply (bch_frame (vNext v)); auto. intros x Hx. apply (E2 d); auto.
Qed.

Lemma NoDup_same (l l' : list Z) : NoDup l' -> zlen l = zlen l' -> NoDup l -> incl l l' -> incl l' l.
Proof. intros _ H ND I. apply NoDup_length_incl; auto. unfold zlen in H. lia. Qed.

Section Detect.
Variables (n iwlen pf0 : Z).
Notation Vw := (Vw n iwlen).
Notation var := (var n).
Notation elt := (elt n).
Variables (me : Z) (Lm : list Z).
Hypothesis Hm : 0 <= me.
Notation INV := (INV n iwlen pf0 me Lm []).

(** Changes of the marks. *)
Lemma INV_marks nvp D wb v v' wb' C E V rep dl hb : INV nvp D wb v C E V rep dl hb ->
  vPe v' = vPe v -> vNv v' = vNv v -> vLen v' = vLen v -> vElen v' = vElen v -> vIw v' = vIw v -> vhi v' = vhi v -> vpf v' = vpf v ->
  vnel v' = vnel v -> vmd v' = vmd v -> vNext v' = vNext v -> vLast v' = vLast v -> vHead v' = vHead v -> vle v <= vle v' ->
  (forall x, x <> me -> vDeg v' x = vDeg v x) ->
  (forall x, 0 <= x < n -> 0 <= vW v' x < wb' /\ (vW v' x = vW v x \/ (1 <= vW v' x /\ ~ (vElen v x < -1 /\ vW v x = 0)))) ->
  INV nvp D wb' v' C E V rep dl hb.
Proof.
  intros I0 EPe ENv ELn EEl EIw Ehi Epf Enel Emd ENx ELa EHd Ele EDg HW.
  pose proof (i_g _ _ _ _ _ _ _ _ _ _ _ _ _ _ _ _ I0) as G0.
  destruct (g_me _ _ _ _ _ _ _ _ G0 Hm) as [Em _].
  assert (Vv : forall x, var v' x <-> var v x) by (intros x; unfold var; rewrite ENv, EEl; tauto).
  assert (Ev : forall x, elt v' x <-> elt v x).
  { intros x. unfold elt. rewrite EEl. split; intros [A [B X]]; (split; [auto|split; [auto|]]); pose proof (HW x A); lia. }
  assert (Nme : forall x, var v x -> x <> me) by (intros x Vx ->; exact (var_elt _ _ _ Vx Em)).
  assert (Ws : forall P, wsum n v' P = wsum n v P).
  { intros P. apply wsum_ext; [|intros; rewrite ENv; auto]. intros x Hx. unfold varb. rewrite ENv, EEl. auto. }
  constructor.
  - constructor; try apply G0.
    + intros x Hx. pose proof (g_kind _ _ _ _ _ _ _ _ G0 x Hx) as K. unfold kind in *. rewrite ENv, EEl, EPe. pose proof (HW x Hx). lia.
    + rewrite ENv. apply G0.
    + intros x Vx. apply Vv in Vx. rewrite ENv. apply G0; auto.
    + rewrite EPe, ELn. apply G0.
    + intros x [].
    + intros x Vx. apply Vv in Vx. rewrite EEl. apply G0; auto.
    + intros i e Vi He. apply Vv in Vi. rewrite Ev. destruct (g_E _ _ _ _ _ _ _ _ G0 i e Vi He) as [X|[[] _]]; auto.
    + intros i j Vi Hj. apply Vv in Vi. rewrite Vv, ENv. apply G0; auto.
    + intros i j Vi Vj. apply Vv in Vi, Vj. apply G0; auto.
    + intros i j Vi. apply Vv in Vi. apply (g_VLm _ _ _ _ _ _ _ _ G0); auto.
    + intros e i Ee. apply Ev in Ee. rewrite Vv, ENv. apply (g_L _ _ _ _ _ _ _ _ G0); auto.
    + intros i e Vi Ee. apply Ev in Ee. apply Vv in Vi. apply (g_EL _ _ _ _ _ _ _ _ G0); auto.
    + intros i Vi. apply Vv in Vi. apply (g_ELme _ _ _ _ _ _ _ _ G0); auto.
    + intros e Ee Ne. apply Ev in Ee. rewrite EDg, Ws by auto. pose proof (g_deg _ _ _ _ _ _ _ _ G0 e Ee Ne). lia.
    + intros _. rewrite Ev, ENv. apply G0; auto.
  - apply (TREE_frame n me nvp v me nvp v' rep); [apply I0|..]; rewrite ?EPe, ?EEl, ?ENv; auto; tauto.
  - destruct (i_d _ _ _ _ _ _ _ _ _ _ _ _ _ _ _ _ I0). constructor.
    + apply (HL_frame n v); auto; rewrite ?ENx, ?ELa, ?EHd; auto.
    + intros x d. rewrite d_dl, Vv, ENv. split; intros [A [B X]]; (split; [auto|split; [auto|]]); [rewrite EDg by auto|rewrite EDg in X by auto]; auto.
    + intros x Vx. apply Vv in Vx. rewrite EDg by auto. auto.
    + rewrite Emd. split; [tauto|]. intros x Vx. apply Vv in Vx. rewrite ENv, EDg by auto. apply d_md; auto.
    + intros x d Hx. rewrite Vv, ENv, ELa. auto.
  - rewrite Epf. apply (Mem_die n v); auto; [apply I0|]. intros; rewrite EPe; auto.
  - eapply Z.le_trans; [apply (used_le n v v')|apply I0].
    + rewrite EPe, ELn. intros. lia.
    + intros x Hx Lx. eapply Mem_len; [apply I0|auto|auto].
  - intros x Hx. apply HW; auto.
  - rewrite Ws, Enel. apply I0.
  - rewrite Ws. apply I0.
  - rewrite Epf. apply I0.
Qed.

(** Variable j is merged into i. *)
Lemma INV_merge nvp D wb v v' C E V rep dl hb i j : INV nvp D wb v C E V rep dl hb ->
  var v i -> var v j -> i <> j -> In i Lm -> In j Lm -> (forall d, ~ In j (hb d)) -> (forall e, In e (E i) <-> In e (E j)) ->
  vPe v' = fup (vPe v) j (FLIP i) -> vNv v' = fup (fup (vNv v) i (vNv v i + vNv v j)) j 0 -> vElen v' = fup (vElen v) j EMPTY ->
  vLen v' = vLen v -> vIw v' = vIw v -> vhi v' = vhi v -> vpf v' = vpf v ->
  vnel v' = vnel v -> vmd v' = vmd v -> vLast v' = vLast v -> vHead v' = vHead v -> vle v' = vle v ->
  vDeg v' = vDeg v -> vW v' = vW v ->
  (forall d x, In x (dl d) \/ In x (hb d) -> vNext v' x = vNext v x) ->
  exists rep', INV nvp D wb v' C E V rep' dl hb.
Proof.
  intros I0 Vi Vj Nij HiL HjL Hhb HE EPe ENv EEl ELn EIw Ehi Epf Enel Emd ELa EHd Ele EDg EW ENx.
  pose proof (i_g _ _ _ _ _ _ _ _ _ _ _ _ _ _ _ _ I0) as G0.
  destruct (g_me _ _ _ _ _ _ _ _ G0 Hm) as [Em [ECm Nm]].
  pose proof (g_Lneg _ _ _ _ _ _ _ _ G0 i Vi HiL) as Ni. pose proof (g_Lneg _ _ _ _ _ _ _ _ G0 j Vj HjL) as Nj.
  assert (Nim : i <> me) by (intros ->; exact (var_elt _ _ _ Vi Em)). assert (Njm : j <> me) by (intros ->; exact (var_elt _ _ _ Vj Em)).
  assert (Ri : 0 <= i < n) by apply Vi. assert (Rj : 0 <= j < n) by apply Vj.
  destruct (kind_var _ _ _ (g_kind _ _ _ _ _ _ _ _ G0 i Ri) Vi) as [Li _].
  assert (Nvj : vNv v' j = 0) by (rewrite ENv; apply fup_eq).
  assert (Nvi : vNv v' i = vNv v i + vNv v j) by (rewrite ENv, fup_ne, fup_eq; auto).
  assert (Nvx : forall x, x <> i -> x <> j -> vNv v' x = vNv v x) by (intros; rewrite ENv, !fup_ne; auto).
  assert (Elx : forall x, x <> j -> vElen v' x = vElen v x) by (intros; rewrite EEl, fup_ne; auto).
  assert (Elj : vElen v' j = -1) by (rewrite EEl, fup_eq; auto).
  assert (Pex : forall x, x <> j -> vPe v' x = vPe v x) by (intros; rewrite EPe, fup_ne; auto).
  assert (Pej : vPe v' j < -1) by (rewrite EPe, fup_eq, FLIP_val; lia).
  assert (Sg : forall x, x <> j -> (vNv v' x = 0 <-> vNv v x = 0) /\ (vNv v' x < 0 <-> vNv v x < 0)).
  { intros x Nx. destruct (Z.eq_dec x i) as [->|Nxi]; [lia|]. rewrite Nvx by auto. tauto. }
  assert (Vv : forall x, var v' x <-> var v x /\ x <> j).
  { intros x. unfold var. destruct (Z.eq_dec x j) as [->|Nx]; [lia|]. rewrite Elx by auto. destruct (Sg x Nx). lia. }
  assert (Ev : forall x, elt v' x <-> elt v x).
  { intros x. unfold elt. rewrite EW. destruct (Z.eq_dec x j) as [->|Nx]; [|rewrite Elx; tauto]. destruct Vj as [_ [_ X]]. lia. }
  assert (Ws : forall P, P i = P j -> wsum n v' P = wsum n v P).
  { intros P HP. set (P0 := fun x => P x && negb (x =? i) && negb (x =? j)).
    assert (P0x : forall x, x <> i -> x <> j -> P0 x = P x).
    { intros x N1 N2. unfold P0. destruct (Z.eqb_spec x i); [congruence|]. destruct (Z.eqb_spec x j); [congruence|]. rewrite !andb_true_r. auto. }
    assert (P0i : P0 i = false) by (unfold P0; rewrite Z.eqb_refl, andb_false_r; auto).
    assert (P0j : P0 j = false) by (unfold P0; rewrite Z.eqb_refl, andb_false_r; auto).
    assert (W0 : wsum n v' P0 = wsum n v P0).
    { apply wsum_ext.
      - intros x Hx. destruct (Z.eq_dec x j) as [->|Nx]; [rewrite P0j, !andb_false_r; auto|].
        destruct (varb_spec n v' x Hx) as [X|X]; destruct (varb_spec n v x Hx) as [Y|Y]; auto; rewrite Vv in X; tauto.
      - intros x Hx X Y. rewrite Nvx; auto; intros ->; congruence. }
    set (P1 := fun x => P x && negb (x =? j)).
    assert (P1x : forall x, x <> i -> P1 x = P0 x).
    { intros x Nx. unfold P0, P1. destruct (Z.eqb_spec x i); [congruence|]. rewrite andb_true_r. auto. }
    assert (W1 : wsum n v' P = wsum n v' P1).
    { apply wsum_ext; auto. intros x Hx. destruct (varb_spec n v' x Hx) as [X|X]; auto. apply Vv in X. unfold P1.
      destruct (Z.eqb_spec x j); [tauto|]. rewrite andb_true_r. auto. }
    assert (P1i : P1 i = P i) by (unfold P1; destruct (Z.eqb_spec i j); [congruence|apply andb_true_r]).
    rewrite W1. destruct (P i) eqn:Pi.
    - rewrite (wsum_remove n v' P1 P0 i); [|apply Vv; auto|auto|auto|auto].
      rewrite (wsum_remove n v P P1 j); [|auto|unfold P1; rewrite Z.eqb_refl, andb_false_r; auto|auto|].
      + rewrite (wsum_remove n v P1 P0 i); [|auto|auto|auto|auto]. rewrite W0, Nvi. lia.
      + intros x _ Nx. unfold P1. destruct (Z.eqb_spec x j); [congruence|]. rewrite andb_true_r. auto.
    - transitivity (wsum n v' P0); [|rewrite W0].
      + apply wsum_ext; auto. intros x Hx. destruct (Z.eq_dec x i) as [->|Nx]; [rewrite P1i, P0i; auto|]. rewrite P1x; auto.
      + apply wsum_ext; auto. intros x Hx. destruct (Z.eq_dec x i) as [->|Nx]; [rewrite Pi, P0i; auto|].
        destruct (Z.eq_dec x j) as [->|Nxj]; [rewrite <- HP, P0j; auto|]. rewrite P0x; auto. }
  destruct (TREE_merge n me nvp nvp v v' rep j i) as [rep' T']; auto.
  { apply I0. } { lia. } { lia. } { lia. } { apply Vj. }
  { intros x Nx. rewrite Elx; auto. }
  { lia. }
  { intros x Hx Nx. destruct (Z.eqb_spec x me) as [->|Nxm]; [destruct (Z.eqb_spec me i); [congruence|lia]|].
    destruct (Z.eqb_spec x i) as [->|Nxi]; [lia|]. rewrite Nvx by auto. lia. }
  exists rep'. constructor; auto.
  - constructor; try apply G0.
    + intros x Hx. unfold kind. destruct (Z.eq_dec x j) as [->|Nx]; [right; right; right; lia|].
      pose proof (g_kind _ _ _ _ _ _ _ _ G0 x Hx) as K. unfold kind in K. rewrite Elx, Pex, EW by auto. destruct (Sg x Nx). lia.
    + intros x Hx Lx. destruct (Z.eq_dec x j) as [->|Nx]; [lia|]. apply G0; auto. apply Sg; auto.
    + intros x Vx Hx. apply Vv in Vx. apply Sg; [tauto|]. apply G0; tauto.
    + rewrite ELn. intros x Hx Lx Nx. destruct (Z.eq_dec x j) as [->|Nxj]; [lia|]. rewrite Pex in Lx by auto. apply G0; auto.
    + intros x [].
    + intros x Vx. apply Vv in Vx. rewrite Elx by tauto. apply G0; tauto.
    + intros x e Vx He. apply Vv in Vx. rewrite Ev. destruct (g_E _ _ _ _ _ _ _ _ G0 x e (proj1 Vx) He) as [X|[[] _]]; auto.
    + intros x y Vx Hy. apply Vv in Vx. destruct (g_V _ _ _ _ _ _ _ _ G0 x y (proj1 Vx) Hy) as [A1 [A2 A3]]. split; auto. split; auto.
      destruct (Z.eq_dec y j) as [->|Ny]; auto. rewrite Vv. destruct (Sg y Ny). tauto.
    + intros x y Vx Vy. apply Vv in Vx, Vy. apply G0; tauto.
    + intros x y Vx. apply Vv in Vx. apply (g_VLm _ _ _ _ _ _ _ _ G0); tauto.
    + intros e x Ee Hx. apply Ev in Ee. destruct (Z.eq_dec x j) as [->|Nx]; auto. rewrite Vv. destruct (Sg x Nx).
      destruct (g_L _ _ _ _ _ _ _ _ G0 e x Ee Hx); tauto.
    + intros x e Vx Ee. apply Ev in Ee. apply Vv in Vx. apply (g_EL _ _ _ _ _ _ _ _ G0); tauto.
    + intros x Vx. apply Vv in Vx. apply (g_ELme _ _ _ _ _ _ _ _ G0); tauto.
    + intros e Ee Ne. apply Ev in Ee. rewrite EDg, Ele, Ws; [apply (g_deg _ _ _ _ _ _ _ _ G0); auto|].
      destruct (inb_spec e (E i)) as [X|X]; destruct (inb_spec e (E j)) as [Y|Y]; auto; apply HE in X || apply HE in Y; tauto.
    + intros _. rewrite Ev, Nvx by auto. auto.
  - destruct (i_d _ _ _ _ _ _ _ _ _ _ _ _ _ _ _ _ I0). constructor.
    + apply (HL_frame n v); auto; rewrite ?ELa, ?EHd; auto.
    + intros x d. rewrite d_dl, Vv, EDg. destruct (Z.eq_dec x j) as [->|Nx]; [lia|]. destruct (Z.eq_dec x i) as [->|Nxi]; [lia|]. rewrite Nvx by auto. tauto.
    + intros x Vx. apply Vv in Vx. rewrite EDg. apply d_rng; tauto.
    + rewrite Emd, EDg. split; [tauto|]. intros x Vx Px. apply Vv in Vx. apply d_md; [tauto|]. destruct (Z.eq_dec x i) as [->|Nxi]; [lia|].
      rewrite Nvx in Px; tauto.
    + intros x d Hx. assert (x <> j) by (intros ->; apply (Hhb d); auto). rewrite Vv, ELa. destruct (d_hb x d Hx) as [A1 [A2 [A3 A4]]].
      destruct (Sg x H). tauto.
  - rewrite Epf. apply (Mem_die n v); auto; [apply I0|]. intros x Hx Lx. apply Pex. intros ->. lia.
  - eapply Z.le_trans; [apply (used_le n v v')|apply I0].
    + intros x Hx Lx. destruct (Z.eq_dec x j) as [->|Nx]; [lia|]. rewrite Pex in Lx by auto. rewrite ELn. lia.
    + intros x Hx Lx. eapply Mem_len; [apply I0|auto|auto].
  - rewrite EW. apply I0.
  - rewrite Ws, Enel by auto. apply I0.
  - rewrite Ws; [apply I0|]. apply inb_in in HiL, HjL. rewrite HiL, HjL. auto.
  - rewrite Epf. apply I0.
Qed.

Lemma wp_while_g {S G} (Inv : G -> S -> Prop) (m : G -> Z) fuel (cond : S -> res bool) (body : S -> res S) s g (Q : S -> Prop) :
  Inv g s -> m g < Z.of_nat fuel ->
  (forall g s, Inv g s -> 0 <= m g /\ wp (cond s) (fun b => if b : bool then wp (body s) (fun s' => exists g', Inv g' s' /\ m g' < m g) else Q s)) ->
  wp (while_ fuel cond body s) Q.
Proof.
  revert s g. induction fuel as [|f IH]; intros s g HI Hx0 Hs.
  - destruct (Hs g s HI). lia.
  - simpl. apply wp_bind. destruct (Hs g s HI) as [H0 H1]. eapply wp_mono; [exact H1|].
    intros [|] H; [|exact H]. apply wp_bind. eapply wp_mono; [exact H|]. intros s' [g' [HI' Hm']]. apply (IH s' g'); auto. lia.
Qed.

Lemma same_pattern_ok s v nvp D wb C E V rep dl hb i j ti tj (Q : bool -> Prop) : Vw s v -> INV nvp D wb v C E V rep dl hb ->
  var v i -> var v j -> E i = me :: ti -> E j = me :: tj -> (forall x, 0 <= x < n -> vW v x = vwf v -> In x (ti ++ V i)) ->
  (forall ok, (ok = true -> forall e, In e (E i) <-> In e (E j)) -> Q ok) ->
  wp (same_pattern j (vLen v i) (vElen v i) s) Q.
Proof.
  intros Vs I0 Vi Vj Ei Ej Mk HQ. unfold same_pattern.
  pose proof (i_g _ _ _ _ _ _ _ _ _ _ _ _ _ _ _ _ I0) as G0. pose proof (i_m _ _ _ _ _ _ _ _ _ _ _ _ _ _ _ _ I0) as M0.
  assert (Ri : 0 <= i < n) by apply Vi. assert (Rj : 0 <= j < n) by apply Vj.
  destruct (kind_var _ _ _ (g_kind _ _ _ _ _ _ _ _ G0 i Ri) Vi) as [Li _]. destruct (kind_var _ _ _ (g_kind _ _ _ _ _ _ _ _ G0 j Rj) Vj) as [Lj _].
  destruct (g_var _ _ _ _ _ _ _ _ G0 i Vi) as [ECi [Eli [NDi _]]]. destruct (g_var _ _ _ _ _ _ _ _ G0 j Vj) as [ECj [Elj [NDj _]]].
  pose proof (m_cells _ _ _ _ M0 j Rj Lj) as Cj. rewrite ECj, Ej in Cj. simpl in Cj. destruct Cj as [_ Cj].
  pose proof (m_len _ _ _ _ M0 j Rj Lj) as Ln. rewrite ECj, Ej in Ln. cbn [app] in Ln. rewrite zlen_cons in Ln.
  pose proof (m_lim _ _ _ _ M0 j Rj Lj) as Lim. pose proof (m_pf _ _ _ _ M0). pose proof (m_hi _ _ _ _ M0).
  pose proof (zlen_nonneg (tj ++ V j)).
  assert (Wf : wflg s = vwf v) by apply Vs.
  ard. wb. assert (Go : forall ok0 : bool, (ok0 = true -> vLen v j = vLen v i /\ vElen v j = vElen v i) ->
    wp (pj <- rd (aPe s) j ;; for_ (pj + 1) (pj + vLen v i) (fun p (ok : bool) =>
      if ok then x <- rd (aIw s) p ;; w <- rd (aW s) x ;; Ok (w =? wflg s) else Ok false) ok0) Q).
  { intros ok0 Hok. ard. destruct ok0.
    - destruct (Hok eq_refl) as [H2 H3]. rewrite <- H2, Ln.
      apply (wp_for_list (tj ++ V j) (fun d r ok => ok = true -> forall x, In x d -> vW v x = vwf v)).
      + lia.
      + intros _ x [].
      + intros d x r ok El HI. destruct ok; [|wok; discriminate]. rewrite El in Cj, Ln. apply cells_app in Cj. destruct Cj as [_ [Cx _]].
        rewrite zlen_app, zlen_cons in Ln. pose proof (zlen_nonneg d). pose proof (zlen_nonneg r).
        ard. rewrite Cx.
        assert (Rx : 0 <= x < n).
        { assert (X : In x (tj ++ V j)) by (rewrite El; apply in_app_iff; right; left; auto). apply in_app_iff in X. destruct X as [X|X].
          - destruct (g_E _ _ _ _ _ _ _ _ G0 j x Vj) as [Y|[[] _]]; [rewrite Ej; right; auto|apply Y].
          - apply (g_V _ _ _ _ _ _ _ _ G0 j x Vj X). }
        ard. wok. rewrite Wf. intros T y Hy. apply Z.eqb_eq in T. apply in_app_iff in Hy. destruct Hy as [Hy|[<-|[]]]; auto.
      + intros ok Hk. apply HQ. intros T. specialize (Hk T).
        assert (Inc : incl (E j) (E i)).
        { intros e He. rewrite Ej in He. destruct He as [<-|He]; [rewrite Ei; left; auto|].
          assert (Ee : elt v e). { destruct (g_E _ _ _ _ _ _ _ _ G0 j e Vj) as [X|[[] _]]; auto. rewrite Ej. right; auto. }
          assert (X : In e (ti ++ V i)) by (apply Mk; [apply Ee|apply Hk; apply in_app_iff; auto]). apply in_app_iff in X. destruct X as [X|X].
          - rewrite Ei. right; auto.
          - exfalso. destruct (g_V _ _ _ _ _ _ _ _ G0 i e Vi X) as [_ [_ [Y|[Y|[_ []]]]]]; [exact (var_elt _ _ _ Y Ee)|].
            destruct (kind_elt _ _ _ (g_kind _ _ _ _ _ _ _ _ G0 e ltac:(apply Ee)) Ee). congruence. }
        intros e. split; [|apply Inc]. apply NoDup_same; auto. lia.
    - assert (for_ (vPe v j + 1) (vPe v j + vLen v i) (fun p (ok : bool) => if ok then x <- rd (aIw s) p ;; w <- rd (aW s) x ;; Ok (w =? wflg s) else Ok false) false = Ok false \/
              True) by auto.
      destruct (Z_le_dec (vPe v j + 1) (vPe v j + vLen v i)) as [Hle|Hgt].
      + apply (wp_for_le (fun _ ok => ok = false)); auto; try lia.
        * intros p ok _ ->. wok. auto.
        * intros ok ->. apply HQ. discriminate.
      + rewrite for_nil by lia. wok. apply HQ. discriminate. }
  destruct (Z.eqb_spec (vLen v j) (vLen v i)) as [Q1|Q1].
  - ard. wok. apply Go. intros T. apply Z.eqb_eq in T. auto.
  - wok. apply Go. discriminate.
Qed.

(** What is also left alone. *)
Definition kf (v : vw) := (vle v, vDeg v, vnel v).
Definition LF (dl hb : Z -> list Z) (v : vw) (l : list Z) : Prop :=
  bch (vNext v) l EMPTY /\ NoDup l /\ forall x, In x l -> var v x /\ In x Lm /\ forall d, ~ In x (hb d).
Definition AB (v v' : vw) : Prop :=
  vLast v' = vLast v /\ vPe v' me = vPe v me /\ vpf v' = vpf v /\ kf v' = kf v /\ forall x, var v' x -> var v x.
Lemma AB_refl v : AB v v. Proof. unfold AB. auto. Qed.
Lemma AB_trans a b c : AB a b -> AB b c -> AB a c.
Proof. intros [A1 [A2 [A3 [A4 A5]]]] [B1 [B2 [B3 [B4 B5]]]]. unfold AB. do 4 (split; [congruence|]). auto. Qed.

Lemma absorb_ok s v nvp D C E V rep dl hb i r (Q : Z * ast -> Prop) : Vw s v -> INV nvp D (vwf v) v C E V rep dl hb ->
  (forall x, var v x -> In x Lm -> exists t, E x = me :: t) -> LF dl hb v (i :: r) -> 1 <= vwf v ->
  (forall s' v' rep' r', Vw s' v' -> INV nvp D (vwf v') v' C E V rep' dl hb -> AB v v' -> vwf v <= vwf v' -> LF dl hb v' r' -> zlen r' <= zlen r -> Q (hdE r', s')) ->
  wp (absorb n i s) Q.
Proof.
  intros Vs I0 HE [Ch [ND HL]] Hw HQ. unfold absorb.
  destruct (HL i (or_introl eq_refl)) as [Vi [HiL Hib]]. destruct (HE i Vi HiL) as [ti Ei].
  pose proof (i_g _ _ _ _ _ _ _ _ _ _ _ _ _ _ _ _ I0) as G0. pose proof (i_m _ _ _ _ _ _ _ _ _ _ _ _ _ _ _ _ I0) as M0.
  pose proof (g_Lneg _ _ _ _ _ _ _ _ G0 i Vi HiL) as Ni.
  assert (Ri : 0 <= i < n) by apply Vi. destruct (kind_var _ _ _ (g_kind _ _ _ _ _ _ _ _ G0 i Ri) Vi) as [Li _].
  destruct (g_var _ _ _ _ _ _ _ _ G0 i Vi) as [ECi [Eli _]].
  pose proof (m_cells _ _ _ _ M0 i Ri Li) as Ci. rewrite ECi, Ei in Ci. simpl in Ci. destruct Ci as [_ Ci].
  pose proof (m_len _ _ _ _ M0 i Ri Li) as Ln. rewrite ECi, Ei in Ln. cbn [app] in Ln. rewrite zlen_cons in Ln.
  pose proof (m_lim _ _ _ _ M0 i Ri Li) as Lim. pose proof (m_pf _ _ _ _ M0). pose proof (m_hi _ _ _ _ M0).
  pose proof (zlen_nonneg (ti ++ V i)) as Zt.
  assert (Rt : forall x, In x (ti ++ V i) -> 0 <= x < n /\ ~ (vElen v x < -1 /\ vW v x = 0)).
  { intros x Hx. apply in_app_iff in Hx. destruct Hx as [X|X].
    - destruct (g_E _ _ _ _ _ _ _ _ G0 i x Vi) as [Y|[[] _]]; [rewrite Ei; right; auto|]. destruct Y as [Y1 [Y2 Y3]]. tauto.
    - destruct (g_V _ _ _ _ _ _ _ _ G0 i x Vi X) as [_ [Y1 [Y2|[Y2|[_ []]]]]].
      + split; auto. destruct Y2 as [_ [_ Y2]]. lia.
      + split; auto. pose proof (g_kind _ _ _ _ _ _ _ _ G0 x Y1) as K. unfold kind in K. lia. }
  ard. ard. ard. wb. set (tl := ti ++ V i) in *.
  apply (wp_for_list tl (fun d _ s => exists w, Vw s (uW v w) /\ forall x, w x = if inb x d then vwf v else vW v x)).
  { lia. }
  { exists (vW v). split; auto. destruct v; exact Vs. }
  { clear s Vs HQ. intros d x t s Et [w [Vs Hw']]. rewrite Et in Ci, Ln. apply cells_app in Ci. destruct Ci as [_ [Cx _]].
    rewrite zlen_app, zlen_cons in Ln. pose proof (zlen_nonneg d). pose proof (zlen_nonneg t).
    ard. rewrite Cx. destruct (Rt x) as [Rx _]; [rewrite Et; apply in_app_iff; right; left; auto|].
    rewrite (V_wf _ _ _ _ Vs). vs. awl s2 V2. eexists. split; [exact V2|]. intros y. rewrite (inb_snoc d x y). unfold fup.
    destruct (Z.eqb_spec y x); [rewrite orb_true_r|rewrite orb_false_r]; auto. }
  clear s Vs. intros s [w [Vs Hw']].
  set (v1 := uW v w).
  assert (I1 : INV nvp D (vwf v + 1) v1 C E V rep dl hb).
  { apply (INV_marks nvp D (vwf v) v); auto; try reflexivity. intros x Hx. unfold v1. vs. rewrite Hw'.
    pose proof (i_w _ _ _ _ _ _ _ _ _ _ _ _ _ _ _ _ I0 x Hx). destruct (inb_spec x tl) as [X|X]; [|lia]. split; [lia|]. right. split; [lia|]. apply Rt; auto. }
  assert (Mk : forall x, 0 <= x < n -> w x = vwf v -> In x tl).
  { intros x Hx. rewrite Hw'. destruct (inb_spec x tl); auto. pose proof (i_w _ _ _ _ _ _ _ _ _ _ _ _ _ _ _ _ I0 x Hx). lia. }
  ard. simpl in Ch. destruct Ch as [Ch1 Ch2]. rewrite Ch1. wb.
  assert (Zr : zlen (i :: r) <= n).
  { pose proof (NoDup_bounded_length (i :: r) 0 n ND ltac:(intros x Hx; apply (HL x Hx))). lia. }
  rewrite zlen_cons in Zr. pose proof (zlen_nonneg r).
  apply (wp_while_g (fun todo '(jlast, j, s) => exists v2 rep2 done, Vw s v2 /\ INV nvp D (vwf v + 1) v2 C E V rep2 dl hb /\ AB v v2 /\
      vW v2 = w /\ vwf v2 = vwf v /\ vLen v2 i = vLen v i /\ vElen v2 i = vElen v i /\ LF dl hb v2 (i :: done ++ todo) /\ jlast = List.last done i /\ j = hdE todo /\
      zlen done + zlen todo <= zlen r) (fun todo => zlen todo)) with (g := r).
  { exists v1, rep, []. split; [exact Vs|]. split; auto. split; [do 4 (split; [reflexivity|]); intros x Vx; exact Vx|]. split; auto. split; auto. split; auto. split; auto.
    split; [split; [simpl; auto|split; auto]|]. split; auto. split; auto. change (zlen (@nil Z)) with 0. lia. }
  { unfold fuel. lia. }
  { clear s Vs rep I1 I0 G0 M0 v1. intros todo [[jlast j] s] [v2 [rep [done [Vs [I2 [A2 [EW2 [Ef2 [Ln2 [El2 [F2 [Ejl [Ej Zd]]]]]]]]]]]]].
    split; [apply zlen_nonneg|]. wok.
    pose proof (i_g _ _ _ _ _ _ _ _ _ _ _ _ _ _ _ _ I2) as G2.
    destruct F2 as [Ch [ND2 HL2]].
    destruct todo as [|j0 todo].
    - simpl in Ej. subst j. rewrite Z.eqb_refl. simpl negb. cbv iota. cbv zeta.
      rewrite (V_wf _ _ _ _ Vs), Ef2. pose proof (Swf _ _ _ _ (vwf v + 1) Vs) as V3.
      ard. wok. rewrite app_nil_r in *. simpl in Ch. destruct Ch as [Ch1' Ch]. rewrite Ch1'.
      apply (HQ _ (uwf v2 (vwf v + 1)) rep done); auto.
      + apply (INV_marks nvp D (vwf v + 1) v2); auto; try reflexivity. intros x Hx. vs. pose proof (i_w _ _ _ _ _ _ _ _ _ _ _ _ _ _ _ _ I2 x Hx). lia.
      + vs. lia.
      + inversion ND2; subst. split; [exact Ch|]. split; auto. intros x Hx. apply HL2. right; auto.
      + change (zlen (@nil Z)) with 0 in Zd. lia.
    - simpl in Ej. subst j.
      assert (Hj : In j0 (i :: done ++ j0 :: todo)) by (right; apply in_app_iff; right; left; auto).
      destruct (HL2 j0 Hj) as [Vj [HjL Hjb]]. assert (Rj : 0 <= j0 < n) by apply Vj.
      destruct (HL2 i (or_introl eq_refl)) as [Vi2 _].
      destruct A2 as [AB1 [AB2 [AB3 [AB4 AB5]]]].
      destruct (HE j0 (AB5 _ Vj) HjL) as [tj Ejj].
      destruct (Z.eqb_spec j0 EMPTY) as [X|_]; [rewrite EMPTY_val in X; lia|]. simpl negb. cbv iota.
      wb. rewrite <- Ln2, <- El2. apply (same_pattern_ok s v2 nvp D (vwf v + 1) C E V rep dl hb i j0 ti tj); auto.
      { rewrite EW2, Ef2. auto. }
      assert (Nij : i <> j0). { inversion ND2; subst. intros ->. apply H4. apply in_app_iff. right; left; auto. }
      assert (Hjl : In jlast (i :: done) /\ i :: done = (removelast (i :: done)) ++ [jlast]).
      { rewrite Ejl. replace (List.last done i) with (List.last (i :: done) EMPTY) by (apply last_cons).
        split; [apply last_in; discriminate|]. apply app_removelast_last. discriminate. }
      destruct Hjl as [Hjl Hsp].
      assert (Hjl2 : In jlast (i :: done ++ j0 :: todo)) by (destruct Hjl; [left; auto|right; apply in_app_iff; auto]).
      destruct (HL2 jlast Hjl2) as [Vjl [HjlL Hjlb]]. assert (Rjl : 0 <= jlast < n) by apply Vjl.
      change (i :: done ++ j0 :: todo) with ((i :: done) ++ j0 :: todo) in *.
      apply bch_app in Ch. destruct Ch as [Ch Ch']. simpl in Ch'. destruct Ch' as [Nxj Ch'].
      destruct (NoDup_mid _ _ _ ND2) as [Nj1 [Nj2 ND3]].
      intros [|] Hok.
      + specialize (Hok eq_refl). aw s1 V1. ard. ard. aw s2 V2. aw s3 V3. aw s4 V4. ard. rewrite Nxj. aw s5 V5. wok.
        exists todo. split; [|rewrite zlen_cons; lia].
        match type of V5 with AmdView.Vw _ _ _ ?x => set (v3 := x) in * end.
        destruct (INV_merge nvp D (vwf v + 1) v2 v3 C E V rep dl hb i j0) as [rep' I3]; auto.
        { intros d x Hx. unfold v3. vs. apply fup_ne. intros ->. destruct Hx as [Hx|Hx]; [|apply (Hjlb d); auto].
          apply (d_dl _ _ _ _ _ (i_d _ _ _ _ _ _ _ _ _ _ _ _ _ _ _ _ I2)) in Hx. pose proof (g_Lneg _ _ _ _ _ _ _ _ G2 jlast Vjl HjlL). lia. }
        destruct (g_me _ _ _ _ _ _ _ _ G2 Hm) as [Em _]. assert (Njm : j0 <> me) by (intros ->; exact (var_elt _ _ _ Vj Em)).
        pose proof (g_Lneg _ _ _ _ _ _ _ _ G2 i Vi2 HiL) as Ni2. pose proof (g_Lneg _ _ _ _ _ _ _ _ G2 j0 Vj HjL) as Nj0.
        assert (V32 : forall x, var v3 x <-> var v2 x /\ x <> j0).
        { intros x. unfold var, v3. vs. destruct (Z.eq_dec x j0) as [->|Nx]; [rewrite !fup_eq; tauto|]. rewrite !(fup_ne _ j0) by auto.
          unfold fup. destruct (Z.eqb_spec x i) as [->|]; [|tauto]. lia. }
        exists v3, rep', done. split; [exact V5|]. split; [exact I3|].
        split. { unfold AB. split; [exact AB1|]. split; [unfold v3; vs; rewrite fup_ne; auto|]. split; [exact AB3|]. split; [exact AB4|].
          intros x Vx. apply AB5. apply V32. auto. }
        split; [exact EW2|]. split; [exact Ef2|]. split; [reflexivity|]. split; [unfold v3; vs; rewrite fup_ne; auto|].
        split. { split; [|split; [exact ND3|]].
          - change (bch (vNext v3) ((i :: done) ++ todo) EMPTY). apply bch_app. 
            assert (ND4 : NoDup (i :: done)) by (apply NoDup_app_remove_r in ND3; auto).
            split.
            + rewrite Hsp in Ch, ND4 |- *. apply bch_app in Ch. destruct Ch as [Ch _]. apply bch_app. split.
              * simpl hd in *. apply (bch_frame (vNext v2)); auto. intros x Hx. unfold v3. vs. apply fup_ne. intros ->.
                apply NoDup_app_iff in ND4. destruct ND4 as [_ [_ X]]. apply (X jlast Hx). left; auto.
              * simpl. split; auto. unfold v3. vs. apply fup_eq.
            + apply (bch_frame (vNext v2)); auto. intros x Hx. unfold v3. vs. apply fup_ne. intros ->.
              apply NoDup_app_iff in ND3. destruct ND3 as [_ [_ X]]. apply (X jlast Hjl Hx).
          - intros x Hx. change (In x ((i :: done) ++ todo)) in Hx. apply in_app_iff in Hx.
            assert (Hx' : In x ((i :: done) ++ j0 :: todo)) by (apply in_app_iff; simpl; tauto).
            destruct (HL2 x Hx') as [B1 [B2 B3]]. split; auto. apply V32. split; auto. intros ->. destruct Hx; auto. }
        split; [exact Ejl|]. split; [auto|]. rewrite zlen_cons in Zd. lia.
      + ard. rewrite Nxj. wok. exists todo. split; [|rewrite zlen_cons; lia].
        assert (Eq : (i :: done ++ [j0]) ++ todo = (i :: done) ++ j0 :: todo) by (simpl; rewrite <- app_assoc; auto).
        exists v2, rep, (done ++ [j0]). split; auto. split; auto. split; [unfold AB; auto|]. split; auto. split; auto. split; auto. split; auto.
        split. { change (i :: (done ++ [j0]) ++ todo) with ((i :: done ++ [j0]) ++ todo). rewrite Eq. split; [|split; auto].
          apply bch_app. split; auto. simpl. auto. }
        split; [symmetry; apply last_snoc|]. split; auto. rewrite zlen_app, !zlen_cons in *. change (zlen (@nil Z)) with 0. lia. }
Qed.


Record DT (rem : list Z) (nvp D : Z) (v : vw) (C E V : Z -> list Z) (rep : Z -> Z) (dl hb : Z -> list Z) : Prop := mkDT {
  dt_inv : INV nvp D (vwf v) v C E V rep dl hb;
  dt_wf : 1 <= vwf v;
  dt_E : forall x, var v x -> In x Lm -> exists t, E x = me :: t;
  dt_rem : forall x d, In x (hb d) -> In x rem;
  dt_last : forall x, In x rem -> var v x -> 0 <= vLast v x < n /\ (In x (hb (vLast v x)) \/ hb (vLast v x) = [])
}.

Lemma bucket_ok s v nvp D C E V rep dl hb i r (Q : ast -> Prop) : Vw s v -> DT (i :: r) nvp D v C E V rep dl hb -> incl (i :: r) Lm -> var v i ->
  (forall s' v' rep' hb', Vw s' v' -> DT r nvp D v' C E V rep' dl hb' -> Keep me v v' /\ kf v' = kf v -> Q s') ->
  wp (bucket n i s) Q.
Proof.
  intros Vs T HI Vi HQ. unfold bucket. pose proof (dt_inv _ _ _ _ _ _ _ _ _ _ T) as I0.
  pose proof (i_g _ _ _ _ _ _ _ _ _ _ _ _ _ _ _ _ I0) as G0. pose proof (i_d _ _ _ _ _ _ _ _ _ _ _ _ _ _ _ _ I0) as D0.
  pose proof (d_hl _ _ _ _ _ D0) as H0. assert (Ri : 0 <= i < n) by apply Vi.
  destruct (dt_last _ _ _ _ _ _ _ _ _ _ T i (or_introl eq_refl) Vi) as [Hh Hor]. set (h := vLast v i) in *.
  destruct (g_me _ _ _ _ _ _ _ _ G0 Hm) as [Em _].
  assert (Rb : forall x, In x (hb h) -> 0 <= x < n) by (intros x Hx; apply (hl_rng _ _ _ _ H0 h x); auto).
  assert (Zb : zlen (hb h) <= n).
  { pose proof (NoDup_bounded_length (hb h) 0 n). pose proof (hl_nd _ _ _ _ H0 h) as X. apply NoDup_app_remove_l in X. specialize (H X Rb). lia. }
  (* once the bucket has been taken out *)
  assert (Main : forall s' la hd', Vw s' (uHead (uLast v la) hd') -> (dl h = [] -> hd' h = EMPTY) -> (dl h <> [] -> hd' h = vHead v h) ->
    (forall d, d <> h -> hd' d = vHead v d) -> (forall x t, dl h = x :: t -> la x = EMPTY) -> (forall x, x <> hdE (dl h) -> la x = vLast v x) ->
    (dl h = [] -> forall x, la x = vLast v x) ->
    wp ('(_, s) <- while_ (fuel n) (fun '(i, s) =>
      if i =? EMPTY then Ok false else x <- rd (aNext s) i ;; Ok (negb (x =? EMPTY))) (fun '(i, s) => absorb n i s) (hdE (hb h), s') ;; Ok s) Q).
  { clear s Vs. intros s la hd' Vs A1 A2 A3 A4 A5 A6. set (v1 := uHead (uLast v la) hd') in *. set (hb' := lset hb h []).
    assert (H1 : HL n v1 dl hb') by (apply (HL_unhash n v); auto).
    assert (La : forall x, var v x -> In x Lm -> vLast v1 x = vLast v x).
    { intros x Vx Hx. unfold v1. vs. destruct (dl h) as [|y t] eqn:Ed; [auto|]. apply A5. simpl. intros ->.
      assert (X : In y (dl h)) by (rewrite Ed; left; auto). apply (d_dl _ _ _ _ _ D0) in X. pose proof (g_Lneg _ _ _ _ _ _ _ _ G0 y Vx Hx). lia. }
    assert (Sub : forall x d, In x (hb' d) -> In x (hb d) /\ d <> h).
    { intros x d. unfold hb'. destruct (Z.eq_dec d h) as [->|Nd]; [rewrite lset_eq; intros []|]. rewrite lset_ne; auto. }
    assert (I1 : INV nvp D (vwf v1) v1 C E V rep dl hb').
    { destruct I0. constructor; auto.
      - destruct i_g. constructor; auto.
      - destruct i_t. constructor; auto.
      - destruct i_d. constructor; auto. intros x d Hx. apply Sub in Hx. destruct Hx as [Hx _]. destruct (d_hb x d Hx) as [B1 [B2 [B3 B4]]].
        rewrite La; auto.
      - destruct i_m. constructor; auto. }
    assert (F1 : LF dl hb' v1 (hb h)).
    { split; [|split].
      - apply (hl_hb _ _ _ _ H0 h Hh).
      - pose proof (hl_nd _ _ _ _ H0 h) as X. apply NoDup_app_remove_l in X. auto.
      - intros x Hx. destruct (d_hb _ _ _ _ _ D0 x h Hx) as [B1 [B2 [B3 B4]]]. split; auto. split; auto. intros d X. apply Sub in X.
        destruct X as [X Nd]. apply Nd. apply (hl_one _ _ _ _ H0 d h x); auto. }
    wb. apply (wp_while_g (fun l '(i, s) => exists v2 rep2, Vw s v2 /\ INV nvp D (vwf v2) v2 C E V rep2 dl hb' /\ AB v1 v2 /\ 1 <= vwf v2 /\
      LF dl hb' v2 l /\ i = hdE l) (fun l => zlen l)) with (g := hb h).
    { exists v1, rep. split; auto. split; auto. split; [apply AB_refl|]. split; [apply T|]. auto. }
    { unfold fuel. pose proof (zlen_nonneg (hb h)). lia. }
    clear s Vs. intros l [k s] [v2 [rep2 [Vs [I2 [A [Wf [F2 ->]]]]]]]. split; [apply zlen_nonneg|].
    assert (Fin : Q s).
    { destruct A as [B1 [B2 [B3 [B4 B5]]]]. apply (HQ s v2 rep2 hb'); auto.
      - constructor; auto.
        + intros x Vx. apply (dt_E _ _ _ _ _ _ _ _ _ _ T). apply B5 in Vx. auto.
        + intros x d Hx. apply Sub in Hx. destruct Hx as [Hx Nd]. pose proof (dt_rem _ _ _ _ _ _ _ _ _ _ T x d Hx) as [<-|X]; auto.
          exfalso. apply Nd. destruct (d_hb _ _ _ _ _ D0 i d Hx) as [_ [_ [_ X]]]. auto.
        + intros x Hx Vx. apply B5 in Vx. assert (Vx' : var v x) by exact Vx. rewrite B1, La by (auto; apply HI; right; auto).
          destruct (dt_last _ _ _ _ _ _ _ _ _ _ T x (or_intror Hx) Vx') as [X1 X2]. split; auto. unfold hb'.
          destruct (Z.eq_dec (vLast v x) h) as [Eq|Nq]; [rewrite Eq, lset_eq; auto|rewrite lset_ne by auto; auto].
      - assert (Nl : vnel v2 = vnel v) by exact (f_equal snd B4). split; [split; [|split; [|lia]]|]; auto. }
    destruct l as [|x l]; simpl hd.
    - rewrite Z.eqb_refl. wok. wok. auto.
    - destruct F2 as [Ch [ND HL2]]. destruct (HL2 x (or_introl eq_refl)) as [Vx [HxL _]]. assert (Rx : 0 <= x < n) by apply Vx.
      destruct (Z.eqb_spec x EMPTY) as [X|_]; [rewrite EMPTY_val in X; lia|]. ard. wok. destruct (negb (vNext v2 x =? EMPTY)); [|wok; auto].
      eapply absorb_ok with (r := l) (dl := dl) (hb := hb'); eauto.
      + intros y Vy. destruct A as [_ [_ [_ [_ B5]]]]. apply B5 in Vy. apply (dt_E _ _ _ _ _ _ _ _ _ _ T). auto.
      + split; auto.
      + intros s' v3 rep3 r' V3 I3 A3' Wf3 F3 Zr. exists r'. split; [|rewrite zlen_cons; lia]. exists v3, rep3. split; auto. split; auto.
        split; [eapply AB_trans; eauto|]. split; [lia|]. auto. }
  ard. fold h. ard. rewrite (hl_head _ _ _ _ H0 h Hh). 
  destruct (dl h) as [|y t] eqn:Ed.
  - destruct (hb h) as [|x l] eqn:Eb.
    + cbn [hd]. rewrite FLIP_EMPTY. rewrite Z.eqb_refl. wb. wok. simpl hd in Main. apply (Main s (vLast v) (vHead v)); auto.
      * destruct v; exact Vs.
      * intros _. rewrite (hl_head _ _ _ _ H0 h Hh), Ed, Eb. reflexivity.
      * discriminate.
    + cbn [hd]. pose proof (Rb x (or_introl eq_refl)). 
      destruct (Z.eqb_spec (FLIP x) EMPTY) as [X|_]; [rewrite FLIP_val, EMPTY_val in X; lia|].
      destruct (Z.ltb_spec (FLIP x) EMPTY) as [_|X]; [|rewrite FLIP_val, EMPTY_val in X; lia].
      wb. aw s1 V1. wok. rewrite FLIP_FLIP. simpl hd in Main. apply (Main s1 (vLast v) (fup (vHead v) h EMPTY)); auto.
      * intros _. apply fup_eq.
      * congruence.
      * intros d Nd. apply fup_ne; auto.
      * discriminate.
  - assert (Hy : 0 <= y < n). { apply (hl_rng _ _ _ _ H0 h). left. rewrite Ed. left; auto. }
    destruct (Z.eqb_spec y EMPTY) as [X|_]; [rewrite EMPTY_val in X; lia|].
    destruct (Z.ltb_spec y EMPTY) as [X|_]; [rewrite EMPTY_val in X; lia|].
    pose proof (hl_dl _ _ _ _ H0 h Hh) as Ch. rewrite Ed in Ch. destruct Ch as [Ly _].
    wb. ard. rewrite Ly. aw s1 V1. wok. apply (Main s1 (fup (vLast v) y EMPTY) (vHead v)); auto.
    + discriminate.
    + intros x t' X. injection X as <- _. apply fup_eq.
    + intros x Nx. apply fup_ne. auto.
    + discriminate.
Qed.

Lemma detect_ok s v nvp D C E V rep dl hb (Q : ast -> Prop) : Vw s v -> DT Lm nvp D v C E V rep dl hb ->
  (forall s' v' rep' hb', Vw s' v' -> DT [] nvp D v' C E V rep' dl hb' -> Keep me v v' -> kf v' = kf v -> Q s') ->
  wp (detect n (vPe v me) (vPe v me + zlen Lm - 1) s) Q.
Proof.
  intros Vs T HQ. unfold detect.
  apply (wp_for_list Lm (fun d r s => exists v' rep' hb', Vw s v' /\ DT r nvp D v' C E V rep' dl hb' /\ Keep me v v' /\ kf v' = kf v)).
  - lia.
  - exists v, rep, hb. split; auto. split; auto. split; auto. split; [|split; [|lia]]; auto.
  - clear s Vs T rep hb HQ. intros d i r s EL [v' [rep [hb [Vs [T [KP Le]]]]]].
    pose proof (dt_inv _ _ _ _ _ _ _ _ _ _ T) as I0. pose proof (i_g _ _ _ _ _ _ _ _ _ _ _ _ _ _ _ _ I0) as G0.
    pose proof (i_m _ _ _ _ _ _ _ _ _ _ _ _ _ _ _ _ I0) as M0. pose proof (i_d _ _ _ _ _ _ _ _ _ _ _ _ _ _ _ _ I0) as D0.
    destruct (g_me _ _ _ _ _ _ _ _ G0 Hm) as [Em [ECm _]]. assert (Rm : 0 <= me < n) by apply Em.
    destruct (kind_elt _ _ _ (g_kind _ _ _ _ _ _ _ _ G0 me Rm) Em) as [Lme _].
    pose proof (m_cells _ _ _ _ M0 me Rm Lme) as Cm. rewrite ECm in Cm. rewrite EL in Cm at 1. apply cells_app in Cm. destruct Cm as [_ [Ci _]].
    pose proof (m_lim _ _ _ _ M0 me Rm Lme) as Lim. rewrite (m_len _ _ _ _ M0 me Rm Lme), ECm in Lim.
    assert (ZL : zlen Lm = zlen d + (1 + zlen r)) by (rewrite EL at 1; rewrite zlen_app, zlen_cons; lia). 
    pose proof (zlen_nonneg d). pose proof (zlen_nonneg r). pose proof (m_pf _ _ _ _ M0). pose proof (m_hi _ _ _ _ M0).
    destruct KP as [KP1 [KP2 KP3]]. rewrite <- KP1. ard. rewrite Ci.
    assert (HI : incl (i :: r) Lm) by (intros x Hx; rewrite EL; apply in_app_iff; auto).
    assert (Hi : In i Lm) by (apply HI; left; auto). 
    assert (Hk : var v' i \/ vNv v' i = 0) by (apply (g_L _ _ _ _ _ _ _ _ G0 me i Em); rewrite ECm; auto).
    assert (Ri : 0 <= i < n). { replace i with (vIw v' (vPe v' me + zlen d)). apply (m_rng _ _ _ _ M0). lia. }
    ard. destruct (Z.ltb_spec (vNv v' i) 0) as [L|L].
    + destruct Hk as [Vi|Z0]; [|lia]. apply (bucket_ok s v' nvp D C E V rep dl hb i r); auto.
      intros s' v2 rep' hb' V2 T' [[K1 [K2 K4]] K3]. exists v2, rep', hb'. split; auto. split; auto. split; [split; [congruence|split; [congruence|lia]]|congruence].
    + wok. exists v', rep, hb. split; auto. split; [|split; [split; [|split]|]; auto]. destruct T. constructor; auto.
      * intros x k Hx. destruct (dt_rem0 x k Hx) as [<-|X]; auto. exfalso. destruct (d_hb _ _ _ _ _ D0 i k Hx) as [_ [_ [Y _]]]. lia.
      * intros x Hx. apply dt_last0. right; auto.
  - intros s' [v' [rep' [hb' [Vs' [T' [KP Le]]]]]]. eapply HQ; eauto.
Qed.

End Detect.
