(** The numeric factorisation and the solve as functions, and the routines on struct kkt that the
    solver calls (kkt_numeric, ldl_solve, ldlinitialsolve). *)
From Coq Require Import ZArith Reals List Lia Lra Bool.
From RecordUpdate Require Import RecordUpdate.
From Verif Require Import Res Arith Lists MSparse Csc SemVec TransposeProofs KktProofs MLdl MSolver
  LdlSpec LdlSym LdlNum LdlSolve LdlR.
Import ListNotations.
Open Scope Z_scope.
Open Scope res_scope.

(** Division and square root made total: the value when defined, zero otherwise. *)
Definition dv (A : Arith) (x y : car A) : car A := match fdiv A x y with Ok q => q | _ => f0 A end.
Definition sq (A : Arith) (x : car A) : car A := match fsqrt A x with Ok q => q | _ => f0 A end.

Lemma dv_ok A x y : (exists q, fdiv A x y = Ok q) -> fdiv A x y = Ok (dv A x y).
Proof. intros [q E]. unfold dv. rewrite E. reflexivity. Qed.

Lemma sq_ok A x : (exists q, fsqrt A x = Ok q) -> fsqrt A x = Ok (sq A x).
Proof. intros [q E]. unfold sq. rewrite E. reflexivity. Qed.

Section Fun.
Variable A : Arith.
Notation F := (car A).
Notation zero := (f0 A).
Variables (n : Z) (col : cols F) (Pf Qf par : Z -> Z).
Notation rows := (brows Pf Qf col).
Notation pl := (fun k => patlist n par (rows k) k).

(** Row k of the elimination: the values y over the pattern list. *)
Definition rowyF (Lv : Z -> Z -> F) (k : Z) (l : list Z) : list Z * (Z -> F) :=
  fold_left (fun st x =>
     (fst st ++ [x], fun i => if i =? x then yfold A n col Pf Qf par Lv (snd st) k (fst st) x else snd st i))
   l ([], fun _ => zero).

Definition facF : Type := ((Z -> Z -> F) * (Z -> Z -> F) * (Z -> F))%type.

Definition numrowF (st : facF) (k : Z) : facF :=
  let '(y, Lv, Dv) := st in
  let yk := snd (rowyF Lv k (pl k)) in
  let Lk := fun i => dv A (yk i) (Dv i) in
  (fun r i => if r =? k then yk i else y r i,
   fun r i => if r =? k then Lk i else Lv r i,
   fun i => if i =? k then regularize A (dfold A col Pf Qf Lk yk k (pl k)) else Dv i).

(** The factorisation: (y, L, D). *)
Definition numF (m : Z) : facF :=
  fold_left numrowF (zr 0 m) (fun _ _ => zero, fun _ _ => zero, fun _ => zero).

Definition fac_y (f : facF) := fst (fst f).
Definition fac_L (f : facF) := snd (fst f).
Definition fac_D (f : facF) := snd f.

Lemma rowyF_fst Lv k l : fst (rowyF Lv k l) = l.
Proof.
  unfold rowyF. induction l as [|x l IH] using rev_ind; auto. rewrite fold_left_app. simpl. now rewrite IH.
Qed.

Lemma rowyF_snoc Lv k l x :
  snd (rowyF Lv k (l ++ [x])) =
  fun i => if i =? x then yfold A n col Pf Qf par Lv (snd (rowyF Lv k l)) k l x else snd (rowyF Lv k l) i.
Proof.
  unfold rowyF at 1. rewrite fold_left_app. cbn [fold_left snd].
  change (fold_left _ l _) with (rowyF Lv k l). rewrite rowyF_fst. reflexivity.
Qed.

Hypothesis HF : forest n par rows.

Lemma rowyF_spec Lv k l : NoDup l ->
  forall l1 i l2, l = l1 ++ i :: l2 ->
    snd (rowyF Lv k l) i = yfold A n col Pf Qf par Lv (snd (rowyF Lv k l)) k l1 i.
Proof.
  induction l as [|x l IH] using rev_ind; intros ND l1 i l2 E.
  - destruct l1; discriminate E.
  - apply NoDup_remove in ND. rewrite app_nil_r in ND. destruct ND as [ND Hx].
    rewrite rowyF_snoc.
    assert (D : (l2 = [] /\ l1 = l /\ i = x) \/ exists l2', l = l1 ++ i :: l2').
    { destruct l2 as [|z l2] using rev_ind.
      - left. apply app_inj_tail in E. destruct E; subst; auto.
      - right. clear IHl2. exists l2. rewrite app_comm_cons, app_assoc in E. apply app_inj_tail in E. tauto. }
    destruct D as [[-> [-> ->]]|[l2' ->]].
    + rewrite Z.eqb_refl. apply yfold_ext; auto. intros j Hj. destruct (Z.eqb_spec j x); auto. subst; tauto.
    + destruct (Z.eqb_spec i x) as [->|]; [exfalso; apply Hx; apply in_elt|].
      rewrite (IH ND l1 i l2') by auto. apply yfold_ext; auto.
      intros j Hj. destruct (Z.eqb_spec j x); auto. subst. exfalso. apply Hx. apply in_or_app. auto.
Qed.

Lemma numF_succ m : 0 <= m -> numF (m + 1) = numrowF (numF m) m.
Proof. intros H. unfold numF. rewrite zr_snoc, fold_left_app by lia. reflexivity. Qed.

Lemma numF_spec : div_ok A ->
  NumSpec A n col Pf Qf par (fac_y (numF n)) (fac_L (numF n)) (fac_D (numF n)).
Proof.
  intros Hdiv k Hk.
  assert (G : forall m, 0 <= m -> m <= n -> forall k, 0 <= k < m ->
     RowSpec A n col Pf Qf par k (fac_y (numF m)) (fac_L (numF m)) (fac_D (numF m))).
  { apply (zr_ind (fun m => m <= n -> forall k, 0 <= k < m ->
     RowSpec A n col Pf Qf par k (fac_y (numF m)) (fac_L (numF m)) (fac_D (numF m)))).
    - intros; lia.
    - clear k Hk. intros m Hm IH Hmn k Hk. rewrite numF_succ by lia. specialize (IH ltac:(lia)).
      destruct (numF m) as [[y Lv] Dv]. unfold fac_y, fac_L, fac_D in *. cbn [numrowF fst snd] in *.
      pose proof (rowyF_spec Lv m (pl m) (pl_nodup A n col Pf Qf par HF m ltac:(lia))) as Hym.
      set (ym := snd (rowyF Lv m (pl m))) in *. cbv beta in ym.
      set (Lm := fun i => dv A (ym i) (Dv i)).
      destruct (Z.eq_dec k m) as [->|].
      + assert (Hlt : forall i, In i (pl m) -> 0 <= i < m) by (intros; apply (pl_in A n col Pf Qf par HF); auto; lia).
        split.
        * intros l1 i l2 E. rewrite Z.eqb_refl. fold ym. rewrite (Hym _ _ _ E).
          assert (0 <= i < m) by (apply Hlt; cbv beta; rewrite E; apply in_elt).
          apply yfold_ext; intros; auto.
          destruct (Z.eqb_spec i m); [lia|auto].
        * intros i Hi. pose proof (Hlt i Hi). rewrite Z.eqb_refl. fold ym.
          destruct (Z.eqb_spec i m); [lia|]. unfold Lm.
          apply dv_ok. rewrite (rs_D _ _ _ _ _ _ _ _ _ _ (IH i ltac:(lia))). apply Hdiv.
        * rewrite Z.eqb_refl. reflexivity.
      + eapply RowSpec_ext; [exact HF| | | | |apply (IH k); lia]; try lia; intros.
        * destruct (Z.eqb_spec r m); [lia|auto].
        * destruct (Z.eqb_spec r m); [lia|auto].
        * destruct (Z.eqb_spec i m); [lia|auto]. }
  apply (G n); lia.
Qed.

(** Columns of the factor, and the whole solve. *)
Definition lcF : cols F := lcol A n col Pf Qf par (fac_L (numF n)).

Definition solF (b : Z -> F) (a : Z) : F :=
  ltsolveF A lcF n n (dsolveF A (lsolveF A lcF n (fun k => b (Pf k))) (fac_D (numF n))) (Qf a).

(** delta after the solve (permuted order). *)
Definition solP (b : Z -> F) : Z -> F :=
  ltsolveF A lcF n n (dsolveF A (lsolveF A lcF n (fun k => b (Pf k))) (fac_D (numF n))).

(** ** On the structure *)

(** The arrays that the symbolic phase leaves: everything kkt_numeric needs. *)
Record SymKkt (k : kkt F) : Prop := mkSymKkt {
  sk_n : 0 <= n;
  sk_perm : isperm n Pf Qf;
  sk_P : vec (k_P k) n Pf;
  sk_Pinv : vec (k_Pinv k) n Qf;
  sk_Parent : vec (k_Parent k) n par;
  sk_Lp : vec (k_Lp k) (n + 1) (Lpf A n col Pf Qf par);
  sk_Lnz : zlen (k_Lnz k) = n;
  sk_Li : Lpf A n col Pf Qf par n <= zlen (k_Li k);
  sk_Lx : Lpf A n col Pf Qf par n <= zlen (k_Lx k);
  sk_D : zlen (k_D k) = n;
  sk_Y : zlen (k_Y k) = n;
  sk_Pat : zlen (k_Pattern k) = n;
  sk_Flag : zlen (k_Flag k) = n
}.

(** The factor of the matrix with columns [col] is stored. *)
Record FacKkt (k : kkt F) : Prop := mkFacKkt {
  fk_csc : Csc (k_Lp k) (k_Li k) (k_Lx k) n lcF;
  fk_D : vec (k_D k) n (fac_D (numF n))
}.

Lemma kkt_numeric_ok cap k :
  div_ok A -> KktRep (k_mat k) n cap col -> SymKkt k ->
  wp (kkt_numeric A k) (fun r => fst r = n /\ SymKkt (snd r) /\ FacKkt (snd r) /\
     k_mat (snd r) = k_mat k /\ k_b (snd r) = k_b k /\ k_P (snd r) = k_P k /\ k_Lp (snd r) = k_Lp k /\
     k_Parent (snd r) = k_Parent k /\ k_Pinv (snd r) = k_Pinv k /\
     k_Lti (snd r) = k_Lti k /\ k_Ltp (snd r) = k_Ltp k).
Proof.
  intros Hdiv HK HS. unfold kkt_numeric. rewrite (kr_sn _ _ _ _ HK). wb.
  pose proof (numF_spec Hdiv) as HN.
  eapply wp_mono.
  { eapply (LDL_numeric_ok A n col Pf Qf par HF _ _ _ HN).
    - apply HS.
    - apply (kr_csc _ _ _ _ HK).
    - apply (kr_row _ _ _ _ HK).
    - apply HS.
    - intros i Hi. simpl. apply (sk_P _ HS). auto.
    - intros i Hi. simpl. apply (sk_Pinv _ HS). auto.
    - apply HS.
    - apply (sk_Lp _ HS).
    - apply (sk_Lnz _ HS).
    - apply (sk_Li _ HS).
    - apply (sk_Lx _ HS).
    - apply (sk_D _ HS).
    - apply (sk_Y _ HS).
    - apply (sk_Pat _ HS).
    - apply (sk_Flag _ HS). }
  intros [d w] [Ed Hw]. simpl in Ed, Hw. subst d. wok. cbn [fst snd]. split; [reflexivity|].
  pose proof (NumSt_Csc A n col Pf Qf par _ _ w (k_Lp k) (sk_n _ HS) (sk_Lp _ HS) Hw) as HC.
  destruct Hw as [L1 [L2 [L3 [L4 [L5 [L6 [L7 [R1 [R2 [R3 [R4 [R5 R6]]]]]]]]]]]].
  split; [|split; [|repeat split]].
  - destruct HS. split; assumption.
  - split; [exact HC|]. exact R4.
Qed.

Lemma fac_div x j : div_ok A -> 0 <= j < n -> exists q, fdiv A x (fac_D (numF n) j) = Ok q.
Proof.
  intros Hd Hj. pose proof (rs_D _ _ _ _ _ _ _ _ _ _ (numF_spec Hd j Hj)) as E. rewrite E. apply Hd.
Qed.

Lemma ldl_solve_ok cap k delta b :
  div_ok A -> KktRep (k_mat k) n cap col -> SymKkt k -> FacKkt k ->
  zlen delta = n -> is_vec (k_b k) n b ->
  wp (ldl_solve A k delta) (fun r => is_vec (fst r) n (solP b) /\ is_vec (snd r) n (solF b)).
Proof.
  intros Hdiv HK HS HFa Ld [Lb Hb]. unfold ldl_solve. rewrite (kr_sn _ _ _ _ HK).
  pose proof (sk_n _ HS) as Hn. pose proof (sk_perm _ HS) as HP.
  assert (HL : lower A n lcF).
  { intros j r v Hj Hin. eapply (proj1 (lcol_lower A n col Pf Qf par HF _ j r v Hj Hin)). }
  wb. eapply wp_mono.
  { eapply LDL_perm_ok; [exact Hn|exact Ld|exact Hb|apply (sk_P _ HS)|apply (pf_range _ _ _ HP)]. }
  intros d1 H1. wb. eapply wp_mono.
  { eapply (LDL_lsolve_ok A); [exact Hn|apply (fk_csc _ HFa)|exact HL|exact H1]. }
  intros d2 H2. wb. eapply wp_mono.
  { eapply (LDL_dsolve_ok A); [exact Hn|exact H2|apply (fk_D _ HFa)|]. intros j Hj. apply fac_div; auto. }
  intros d3 H3. wb. eapply wp_mono.
  { eapply (LDL_ltsolve_ok A); [exact Hn|apply (fk_csc _ HFa)|exact HL|exact H3]. }
  intros d4 H4. wb. eapply wp_mono.
  { eapply (LDL_permt_ok A n (k_b k) d4 (k_P k) Pf Qf); [exact Hn|exact Lb|apply is_vec_vec; exact H4|apply (sk_P _ HS)|exact HP]. }
  intros b5 H5. wok. cbn [fst snd]. split; [exact H4|exact H5].
Qed.

End Fun.

(** ldlinitialsolve from scratch. *)
Lemma ldlinitialsolve_ok A n cap (col : cols (car A)) Pf Qf k delta b :
  div_ok A -> 0 <= n -> KktRep (k_mat k) n cap col -> isperm n Pf Qf ->
  vec (k_P k) n Pf -> zlen (k_Pinv k) = n -> zlen delta = n -> is_vec (k_b k) n b ->
  wp (ldlinitialsolve A k delta) (fun r => let '(ok, k', delta') := r in
     ok = true /\ exists par, forest n par (brows Pf Qf col) /\ (forall i, n <= i -> par i = -1) /\
       SymKkt A n col Pf Qf par k' /\ FacKkt A n col Pf Qf par k' /\
       k_mat k' = k_mat k /\ k_P k' = k_P k /\
       is_vec delta' n (solP A n col Pf Qf par b) /\
       is_vec (k_b k') n (solF A n col Pf Qf par b)).
Proof.
  intros Hdiv Hn HK HP HvP LPi Ld Hb. unfold ldlinitialsolve. rewrite (kr_sn _ _ _ _ HK).
  wb. eapply wp_mono.
  { eapply (LDL_symbolic_ok n _ _ (pr (k_mat k)) col Pf Qf); auto.
    - apply (kr_csc _ _ _ _ HK).
    - apply (kr_row _ _ _ _ HK).
    - apply zlen_malloc; lia.
    - apply zlen_malloc; lia.
    - apply zlen_malloc; lia.
    - apply zlen_malloc; lia.
    - split; [exact HvP|]. eauto. }
  intros [[[[Lp Pa] Ln] Fl] Pi] [par [HF [Hout [[LPa RPa] [[LLn RLn] [[LLp RLp] [LFl [HgQ [q [-> [Lq Rq]]]]]]]]]]].
  wb. apply wp_ok. wb.
  assert (E : rd Lp n = Ok (Lpf A n col Pf Qf par n)) by (apply RLp; lia).
  eapply wp_rd; [exact E|].
  pose proof (Lpf_nonneg A n col Pf Qf par n) as Hnn.
  set (lnz := Lpf A n col Pf Qf par n) in *.
  match goal with |- wp (bind (kkt_numeric A ?k1) _) _ => set (k0 := k1) end.
  assert (HS : SymKkt A n col Pf Qf par k0).
  { split; auto; unfold k0; cbn; rewrite ?zlen_malloc; fold lnz; lia. }
  wb. eapply wp_mono; [apply (kkt_numeric_ok A n col Pf Qf par HF cap k0); auto|].
  intros [d k1] [Ed [HS1 [HF1 [E1 [E2 [E3 [E4 [E5 [E6 [E7 E8]]]]]]]]]]. cbn [fst snd] in *. subst d.
  assert (Est : start (lcF A n col Pf Qf par) n = lnz) by apply lcol_start.
  wb. eapply wp_mono.
  { eapply (Transpose_Row_Count_ok A n n (k_Li k1) (k_Lp k1) (k_Lx k1) (lcF A n col Pf Qf par)); auto.
    - apply HF1.
    - intros j r v Hj Hin. eapply lcol_rows; eauto.
    - rewrite zlen_malloc; lia.
    - rewrite zlen_malloc by lia. symmetry. exact Est. }
  intros [Lti Ltp] _. rewrite Z.eqb_refl.
  match goal with |- wp (bind (ldl_solve A ?k2 _) _) _ => set (k3 := k2) end.
  wb. eapply wp_mono.
  { eapply (ldl_solve_ok A n col Pf Qf par HF cap k3 delta b); auto.
    - unfold k3; cbn. rewrite E1. exact HK.
    - destruct HS1. split; assumption.
    - destruct HF1. split; assumption.
    - unfold k3; cbn. rewrite E2. exact Hb. }
  intros [delta' b'] [H1 H2]. wok. split; [reflexivity|]. exists par.
  split; [exact HF|]. split; [exact Hout|]. split; [destruct HS1; split; assumption|].
  split; [destruct HF1; split; assumption|].
  split; [unfold k3; cbn; rewrite E1; reflexivity|]. split; [unfold k3; cbn; rewrite E3; reflexivity|].
  split; [exact H1|exact H2].
Qed.
