(** The first scan, src/amd_2.c:1034-1069: W [e] becomes wflg plus the weight of the part of e outside the new element. *)
From Coq Require Import ZArith List Lia Bool.
From RecordUpdate Require Import RecordUpdate.
From Verif Require Import Res Lists MAmd AmdBase AmdView AmdLists AmdGc AmdInv AmdBuild.
Import ListNotations.
Open Scope Z_scope.
Open Scope res_scope.

Lemma wsum_remove n v P P' i : var n v i -> P' i = false -> P i = true -> (forall j, 0 <= j < n -> j <> i -> P j = P' j) ->
  wsum n v P = wsum n v P' + Z.abs (vNv v i).
Proof.
  intros Vi H1 H2 H3. destruct Vi as [Hi Vi]. unfold wsum.
  rewrite (sumz_ext (fun j => if varb v j && P j then Z.abs (vNv v j) else 0)
    (fup (fun j => if varb v j && P' j then Z.abs (vNv v j) else 0) i (Z.abs (vNv v i)))).
  - rewrite sumz_fup; [|apply NoDup_zr|apply in_zr; auto]. rewrite H1, andb_false_r. lia.
  - intros j Hj. apply in_zr in Hj. unfold fup. destruct (Z.eqb_spec j i) as [->|Ne].
    + rewrite H2. destruct (varb_spec n v i Hi) as [_|X]; auto. exfalso. apply X. split; auto.
    + rewrite H3; auto.
Qed.

Section Scan1.
Variables (n iwlen pf0 : Z).
Notation Vw := (Vw n iwlen).
Notation var := (var n).
Notation elt := (elt n).
Variables (v : vw) (C E V : Z -> list Z) (rep : Z -> Z) (dl hb : Z -> list Z) (me : Z) (Lm : list Z) (nvp D f : Z).
Hypothesis I0 : INV n iwlen pf0 me Lm Lm nvp D f v C E V rep dl hb.
Hypothesis Hf : vwf v = f.
Hypothesis Hm : 0 <= me.
Let G0 := i_g _ _ _ _ _ _ _ _ _ _ _ _ _ _ _ _ I0.
Let M0 := i_m _ _ _ _ _ _ _ _ _ _ _ _ _ _ _ _ I0.

Definition touched (d : list Z) (x : Z) : bool := existsb (fun i => inb x (E i)) d.
Definition outside (d : list Z) (x : Z) : Z := wsum n v (fun i => inb x (E i) && negb (inb i d)).
Definition sc (d : list Z) (x : Z) : Z :=
  if vW v x =? 0 then 0 else if touched d x then f + outside d x else vW v x.

Lemma sc_nil x : sc [] x = vW v x.
Proof. unfold sc. simpl. destruct (Z.eqb_spec (vW v x) 0); lia. Qed.

Lemma touched_snoc d i x : touched (d ++ [i]) x = touched d x || inb x (E i).
Proof. unfold touched. rewrite existsb_app. simpl. rewrite orb_false_r. auto. Qed.

Lemma inb_snoc d i j : inb j (d ++ [i]) = inb j d || (j =? i).
Proof. unfold inb. rewrite existsb_app. simpl. rewrite orb_false_r. auto. Qed.

Lemma sc_out d i x : ~ In x (E i) -> sc (d ++ [i]) x = sc d x.
Proof.
  intros H. unfold sc. rewrite touched_snoc, (inb_out x (E i)), orb_false_r by auto.
  replace (outside (d ++ [i]) x) with (outside d x); auto. unfold outside. apply wsum_ext.
  - intros j Hj. rewrite inb_snoc. destruct (Z.eqb_spec j i) as [->|]; [rewrite inb_out by auto|rewrite orb_false_r]; auto.
  - auto.
Qed.

Lemma outside_snoc d i x : var v i -> ~ In i d -> In x (E i) -> outside d x = outside (d ++ [i]) x + Z.abs (vNv v i).
Proof.
  intros Vi Ni Hx. unfold outside. apply (wsum_remove n v _ _ i); auto.
  - rewrite inb_snoc, Z.eqb_refl, orb_true_r, andb_false_r. auto.
  - rewrite (inb_out i d) by auto. apply inb_in in Hx. rewrite Hx. auto.
  - intros j Hj Ne. rewrite inb_snoc. destruct (Z.eqb_spec j i); [congruence|]. rewrite orb_false_r. auto.
Qed.

Lemma outside_nil d x : touched d x = false -> outside d x = wsum n v (fun i => inb x (E i)).
Proof.
  intros T. unfold outside. apply wsum_ext; auto. intros i Hi. destruct (inb_spec i d) as [X|X]; simpl; rewrite ?andb_true_r; auto.
  destruct (inb x (E i)) eqn:Y; simpl; auto. exfalso. enough (touched d x = true) by congruence. apply existsb_exists. eauto.
Qed.

Lemma Lm_var i : In i Lm -> var v i /\ vNv v i < 0.
Proof. intros Hi. pose proof (g_pend _ _ _ _ _ _ _ _ G0 i Hi) as X. split; auto. apply (g_Lneg _ _ _ _ _ _ _ _ G0); auto. Qed.

Lemma scan1_one_ok s w i d r (Q : ast -> Prop) : Lm = d ++ i :: r -> Vw s (uW v w) -> (forall x, 0 <= x < n -> w x = sc d x) ->
  (forall s' w', Vw s' (uW v w') -> (forall x, 0 <= x < n -> w' x = sc (d ++ [i]) x) -> Q s') ->
  wp (scan1_one i s) Q.
Proof.
  intros EL Vs Hw HQ. assert (Hi : In i Lm) by (rewrite EL; apply in_app_iff; right; left; auto).
  destruct (Lm_var i Hi) as [Vi Ni]. pose proof (g_Lm _ _ _ _ _ _ _ _ G0) as ND. rewrite EL in ND. destruct (NoDup_mid _ _ _ ND) as [Nd [Nr _]].
  assert (Ri : 0 <= i < n) by apply Vi.
  destruct (g_var _ _ _ _ _ _ _ _ G0 i Vi) as [EC [Ee [NDE _]]].
  destruct (kind_var _ _ _ (g_kind _ _ _ _ _ _ _ _ G0 i Ri) Vi) as [Li _].
  pose proof (m_cells _ _ _ _ M0 i Ri Li) as Ci. rewrite EC in Ci. apply cells_app in Ci. destruct Ci as [Ci _].
  pose proof (m_lim _ _ _ _ M0 i Ri Li) as Lim. rewrite (m_len _ _ _ _ M0 i Ri Li), EC, zlen_app in Lim.
  pose proof (m_pf _ _ _ _ M0). pose proof (m_hi _ _ _ _ M0). pose proof (zlen_nonneg (V i)). pose proof (zlen_nonneg (E i)).
  unfold scan1_one. ard. rewrite Ee.
  assert (Fin : forall s' w', Vw s' (uW v w') -> (forall x, 0 <= x < n -> w' x = if inb x (E i) then sc (d ++ [i]) x else sc d x) -> Q s').
  { intros s' w' V' H'. apply (HQ s' w'); auto. intros x Hx. rewrite H' by auto. destruct (inb_spec x (E i)); auto. rewrite sc_out; auto. }
  destruct (Z.ltb_spec 0 (zlen (E i))) as [L|L].
  - ard. ard. rewrite (V_wf _ _ _ _ Vs). vs. rewrite Hf. apply (wp_for_list (E i) (fun d2 r2 s => exists w', Vw s (uW v w') /\ forall x, 0 <= x < n -> w' x = if inb x d2 then sc (d ++ [i]) x else sc d x)).
    + auto.
    + exists w. split; auto.
    + clear s w Vs Hw HQ Fin. intros d2 e r2 s EE [w [Vs Hw]].
      assert (HeE : In e (E i)) by (rewrite EE; apply in_app_iff; right; left; auto).
      rewrite EE in NDE. destruct (NoDup_mid _ _ _ NDE) as [Ne2 _].
      assert (zlen (E i) = zlen d2 + zlen r2 + 1) by (rewrite EE, zlen_app, zlen_cons; lia).
      pose proof (zlen_nonneg d2). pose proof (zlen_nonneg r2).
      rewrite EE in Ci. apply cells_app in Ci. destruct Ci as [_ [Ce _]].
      ard. rewrite Ce. assert (Re : 0 <= e < n).
      { destruct (g_E _ _ _ _ _ _ _ _ G0 i e Vi HeE) as [X|X]; [apply X|tauto]. }
      ard. rewrite Hw by auto. rewrite (inb_out e d2) by auto. rewrite (V_wf _ _ _ _ Vs). vs. rewrite Hf.
      assert (Dn : forall y, y = sc (d ++ [i]) e -> wp (sW s e y) (fun s => exists w', Vw s (uW v w') /\ forall x, 0 <= x < n -> w' x = if inb x (d2 ++ [e]) then sc (d ++ [i]) x else sc d x)).
      { intros y ->. awl s2 V2. exists (fup w e (sc (d ++ [i]) e)). split; [exact V2|]. intros x Hx. rewrite inb_snoc.
        destruct (Z.eqb_spec x e) as [->|Nx]; [rewrite fup_eq, orb_true_r; auto|]. rewrite fup_ne, orb_false_r by auto. auto. }
      assert (Tn : touched (d ++ [i]) e = true) by (rewrite touched_snoc; apply inb_in in HeE; rewrite HeE, orb_true_r; auto).
      pose proof (i_w _ _ _ _ _ _ _ _ _ _ _ _ _ _ _ _ I0 e Re) as We.
      pose proof (wsum_nonneg n v (fun i0 => inb e (E i0) && negb (inb i0 d))) as Wn. fold (outside d e) in Wn.
      pose proof (outside_snoc d i e Vi Nd HeE) as On. replace (Z.abs (vNv v i)) with (- vNv v i) in On by lia.
      unfold sc in Dn |- *. rewrite Tn in Dn. destruct (Z.eqb_spec (vW v e) 0) as [W0|W0].
      * destruct (Z.leb_spec f 0); [lia|]. simpl negb. cbv iota. wb. wok. apply Dn. auto.
      * destruct (touched d e) eqn:Td.
        -- destruct (Z.leb_spec f (f + outside d e)); [|lia]. wb. wok. apply Dn. lia.
        -- destruct (Z.leb_spec f (vW v e)); [lia|]. destruct (Z.eqb_spec (vW v e) 0); [congruence|]. simpl negb. cbv iota. wb. ard. wok. apply Dn.
           assert (Ee' : elt v e). { destruct (g_E _ _ _ _ _ _ _ _ G0 i e Vi HeE) as [X|[_ [_ [_ X]]]]; [auto|congruence]. }
           assert (e <> me). { intros ->. apply (g_ELme _ _ _ _ _ _ _ _ G0 i Vi) in HeE. tauto. }
           destruct (g_deg _ _ _ _ _ _ _ _ G0 e Ee') as [Dg _]; auto. rewrite Dg, <- (outside_nil d e Td). lia.
    + intros s' [w' [V' H']]. apply (Fin s' w'); auto.
  - wok. assert (E i = []) by (destruct (E i); auto; rewrite zlen_cons in *; pose proof (zlen_nonneg l); lia).
    apply (Fin s w); auto. rewrite H3. auto.
Qed.

Lemma scan1_ok s (Q : ast -> Prop) : Vw s v ->
  (forall s' w', Vw s' (uW v w') -> (forall x, 0 <= x < n -> w' x = sc Lm x) -> Q s') ->
  wp (scan1 (vPe v me) (vPe v me + zlen Lm - 1) s) Q.
Proof.
  intros Vs HQ. unfold scan1.
  destruct (g_me _ _ _ _ _ _ _ _ G0 Hm) as [Em [EC Nm]]. assert (Rm : 0 <= me < n) by apply Em.
  destruct (kind_elt _ _ _ (g_kind _ _ _ _ _ _ _ _ G0 me Rm) Em) as [Lme _].
  pose proof (m_cells _ _ _ _ M0 me Rm Lme) as Cm. rewrite EC in Cm.
  pose proof (m_lim _ _ _ _ M0 me Rm Lme) as Lim. rewrite (m_len _ _ _ _ M0 me Rm Lme), EC in Lim.
  pose proof (m_pf _ _ _ _ M0). pose proof (m_hi _ _ _ _ M0).
  apply (wp_for_list Lm (fun d r s => exists w, Vw s (uW v w) /\ forall x, 0 <= x < n -> w x = sc d x)).
  - lia.
  - exists (vW v). split; [destruct v; exact Vs|]. intros x Hx. rewrite sc_nil. auto.
  - clear s Vs HQ. intros d i r s EL [w [Vs Hw]]. rewrite EL in Cm. apply cells_app in Cm. destruct Cm as [_ [Ci _]].
    assert (zlen Lm = zlen d + zlen r + 1) by (rewrite EL, zlen_app, zlen_cons; lia).
    pose proof (zlen_nonneg d). pose proof (zlen_nonneg r).
    ard. rewrite Ci. eapply (scan1_one_ok s w i d r); eauto.
  - intros s' [w [V' H']]. apply (HQ s' w); auto.
Qed.

(** What the second scan needs to know. *)
Lemma sc_zero x : 0 <= x < n -> sc Lm x = 0 <-> vW v x = 0.
Proof.
  intros Hx. pose proof (i_w _ _ _ _ _ _ _ _ _ _ _ _ _ _ _ _ I0 x Hx) as We. unfold sc. destruct (Z.eqb_spec (vW v x) 0); [tauto|].
  destruct (touched Lm x); [|tauto]. pose proof (wsum_nonneg n v (fun i0 => inb x (E i0) && negb (inb i0 Lm))) as Wn. fold (outside Lm x) in Wn. lia.
Qed.
Lemma sc_bound x : 0 <= x < n -> 0 <= sc Lm x < f + Z.max 0 (vle v).
Proof.
  intros Hx. pose proof (i_w _ _ _ _ _ _ _ _ _ _ _ _ _ _ _ _ I0 x Hx) as We. unfold sc. destruct (Z.eqb_spec (vW v x) 0) as [|W0]; [lia|].
  destruct (touched Lm x) eqn:T; [|lia]. pose proof (wsum_nonneg n v (fun i0 => inb x (E i0) && negb (inb i0 Lm))) as Wn. fold (outside Lm x) in Wn.
  split; [lia|]. apply existsb_exists in T. destruct T as [i [Hi T]]. pose proof T as Ti. apply inb_in in T. destruct (Lm_var i Hi) as [Vi Ni].
  assert (Ee : elt v x). { destruct (g_E _ _ _ _ _ _ _ _ G0 i x Vi T) as [X|[_ [_ [_ X]]]]; [auto|congruence]. }
  assert (x <> me). { intros ->. apply (g_ELme _ _ _ _ _ _ _ _ G0 i Vi) in T. tauto. }
  destruct (g_deg _ _ _ _ _ _ _ _ G0 x Ee) as [Dg Dl]; auto. rewrite Dg in Dl.
  enough (outside Lm x + Z.abs (vNv v i) <= wsum n v (fun i => inb x (E i))) by lia.
  rewrite (wsum_split n v (fun i => inb x (E i)) (fun i => negb (inb i Lm))). fold (outside Lm x).
  enough (Z.abs (vNv v i) <= wsum n v (fun i0 => inb x (E i0) && negb (negb (inb i0 Lm)))) by (unfold outside; lia).
  apply (wsum_pos n v (fun i0 => inb x (E i0) && negb (negb (inb i0 Lm)))); auto. apply inb_in in Hi. rewrite Ti, Hi. auto.
Qed.
Lemma sc_touched e i : In i Lm -> In e (E i) -> elt v e -> f <= sc Lm e.
Proof.
  intros Hi He Ee. unfold sc. destruct (Z.eqb_spec (vW v e) 0); [destruct Ee as [_ [_ X]]; congruence|].
  replace (touched Lm e) with true. 
  - pose proof (wsum_nonneg n v (fun i0 => inb e (E i0) && negb (inb i0 Lm))) as Wn. fold (outside Lm e) in Wn. lia.
  - symmetry. apply existsb_exists. exists i. split; auto. apply inb_in; auto.
Qed.
Lemma sc_value e : elt v e -> f <= sc Lm e -> sc Lm e = f + outside Lm e.
Proof.
  intros Ee. pose proof (i_w _ _ _ _ _ _ _ _ _ _ _ _ _ _ _ _ I0 e ltac:(apply Ee)) as We. unfold sc.
  destruct (Z.eqb_spec (vW v e) 0); [destruct Ee as [_ [_ X]]; congruence|]. destruct (touched Lm e); lia.
Qed.
End Scan1.
