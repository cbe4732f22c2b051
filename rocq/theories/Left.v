(** Left-looking partial refactorisation (LDL_cache_numeric): array-level facts, for every arithmetic. *)
From Coq Require Import ZArith List Lia Bool.
From Verif Require Import Res Arith Lists MSparse Csc SemVec MLdl LdlSpec LdlSym LdlNum MInactive Cache Flat.
Import ListNotations.
Open Scope Z_scope.
Open Scope res_scope.

Lemma filter_all {T} (f : T -> bool) l : (forall x, In x l -> f x = true) -> filter f l = l.
Proof.
  induction l as [|x l IH]; intros H; cbn [filter]; auto. rewrite (H x) by (left; auto). f_equal. apply IH.
  intros y Hy. apply H. right. auto.
Qed.

Lemma filter_none {T} (f : T -> bool) l : (forall x, In x l -> f x = false) -> filter f l = [].
Proof.
  induction l as [|x l IH]; intros H; cbn [filter]; auto. rewrite (H x) by (left; auto). apply IH.
  intros y Hy. apply H. right. auto.
Qed.

Section Left.
Variable A : Arith.
Notation F := (car A).
Notation zero := (f0 A).
Variables (n : Z) (col : cols F) (Pf Qf par : Z -> Z).
Notation rows := (brows Pf Qf col).
Notation pl := (fun k => patlist n par (rows k) k).
Notation sl := (sl A n col Pf Qf par).
Notation Lpf := (Lpf A n col Pf Qf par).
Notation lrows := (lrows A n col Pf Qf par).
Hypothesis HF : forest n par rows.

(** What the scatter leaves at row [r]: the last value stored there. *)
Definition a0 (k r : Z) : F :=
  fold_left (fun acc e => if fst e =? r then snd e else acc) (bcol Pf Qf col k) zero.

(** Row [r] of column [k] after the updates by the columns [l]. *)
Definition zfold (Lv : Z -> Z -> F) (Dv : Z -> F) (k : Z) (l : list Z) (r : Z) : F :=
  fold_left (fun acc c => if inb c (pl r) then fsub A acc (fmul A (Lv r c) (fmul A (Lv k c) (Dv c))) else acc) l (a0 k r).

Record LCol (k : Z) (Lv : Z -> Z -> F) (Dv : Z -> F) : Prop := mkLCol {
  lc_D : Dv k = regularize A (zfold Lv Dv k (sl k) k);
  lc_L : forall r, In r (lrows n k) -> fdiv A (zfold Lv Dv k (sl k) r) (Dv k) = Ok (Lv r k)
}.

Lemma zfold_ext Lv Lv' Dv Dv' k l r :
  (forall c, In c l -> In c (pl r) -> Lv r c = Lv' r c) -> (forall c, In c l -> Lv k c = Lv' k c) ->
  (forall c, In c l -> Dv c = Dv' c) -> zfold Lv Dv k l r = zfold Lv' Dv' k l r.
Proof.
  intros H1 H2 H3. apply fold_left_ext_in. intros s c Hc. destruct (inb c (pl r)) eqn:E; auto.
  apply inb_true in E. rewrite (H1 c Hc E), (H2 c Hc), (H3 c Hc). reflexivity.
Qed.

Lemma sl_lt k i : 0 <= k < n -> In i (sl k) -> 0 <= i < k.
Proof. intros Hk Hi. apply (in_sl A n col Pf Qf par HF) in Hi; auto. eapply (pl_in A n col Pf Qf par HF); eauto. Qed.

Lemma LCol_ext k Lv Lv' Dv Dv' : 0 <= k < n ->
  (forall r c, 0 <= c <= k -> Lv r c = Lv' r c) -> (forall c, 0 <= c <= k -> Dv c = Dv' c) ->
  LCol k Lv Dv -> LCol k Lv' Dv'.
Proof.
  intros Hk EL ED [H1 H2].
  assert (EZ : forall r, zfold Lv Dv k (sl k) r = zfold Lv' Dv' k (sl k) r).
  { intros r. apply zfold_ext; intros c Hc; apply (sl_lt k c Hk) in Hc; [intros _; apply EL|apply EL|apply ED]; lia. }
  split.
  - rewrite <- ED by lia. rewrite <- EZ. exact H1.
  - intros r Hr. rewrite <- ED, <- EL, <- EZ by lia. auto.
Qed.

(** If [c] is in the rows k < r then [r] is in column k. *)
Lemma fill k r c : 0 <= k < r -> r < n -> In c (pl k) -> In c (pl r) -> In k (pl r).
Proof.
  intros Hk Hr H1 H2. pose proof H2 as H3. apply in_split in H3. destruct H3 as [l1 [l2 E]].
  pose proof (topo_between par r (pl r) k (pl k) l1 c l2 (fo_topo _ _ _ HF r ltac:(lia)) (fo_topo _ _ _ HF k ltac:(lia))
    ltac:(lia) E H1) as H. cbv beta in *. rewrite E. apply in_or_app. right. right. exact H.
Qed.

Variable fl : Z -> bool.
Hypothesis Hcl : forall i, 0 <= i < n -> fl i = true -> par i <> -1 -> fl (par i) = true.

Lemma flag_up k i : 0 <= k < n -> In i (pl k) -> fl i = true -> fl k = true.
Proof.
  intros Hk Hi Fi. eapply (topo_closed par k _ i fl); [apply (fo_topo _ _ _ HF k Hk)| |exact Hi|exact Fi].
  intros x Hx Fx. pose proof (topo_par_le _ _ _ _ (fo_topo _ _ _ HF k Hk) Hx). apply Hcl; auto; lia.
Qed.

Lemma flag_later c k r : 0 <= k < r -> r < n -> In c (pl k) -> In c (pl r) -> fl k = true -> fl r = true.
Proof. intros Hk Hr H1 H2 Fk. apply (flag_up r k); auto; [lia|]. eapply fill; eauto. Qed.

(** Values exist, whatever the unflagged columns hold. *)
Lemma left_exists Lo Do : div_ok A -> 0 <= n ->
  exists Lv Dv, (forall k, 0 <= k < n -> fl k = true -> LCol k Lv Dv) /\
    (forall k, 0 <= k < n -> fl k = false -> Dv k = Do k /\ forall r, Lv r k = Lo r k).
Proof.
  intros Hdiv Hn.
  assert (G : forall m, 0 <= m -> m <= n -> exists Lv Dv,
    (forall k, 0 <= k < m -> fl k = true -> LCol k Lv Dv) /\
    (forall k, 0 <= k < n -> fl k = false -> Dv k = Do k /\ forall r, Lv r k = Lo r k)).
  2:{ apply G; lia. }
  apply (zr_ind (fun m => m <= n -> exists Lv Dv,
    (forall k, 0 <= k < m -> fl k = true -> LCol k Lv Dv) /\
    (forall k, 0 <= k < n -> fl k = false -> Dv k = Do k /\ forall r, Lv r k = Lo r k))).
  - intros _. exists Lo, Do. split; [intros; lia|auto].
  - intros m Hm IH Hmn. destruct (IH ltac:(lia)) as [Lv [Dv [H Ho]]].
    destruct (fl m) eqn:Fm.
    2:{ exists Lv, Dv. split; auto. intros k Hk Fk. destruct (Z.eq_dec k m); [congruence|]. apply H; auto; lia. }
    set (d := regularize A (zfold Lv Dv m (sl m) m)).
    set (Lm := fun r => match fdiv A (zfold Lv Dv m (sl m) r) d with Ok q => q | _ => zero end).
    set (Lv' := fun r c => if c =? m then Lm r else Lv r c).
    set (Dv' := fun c => if c =? m then d else Dv c).
    assert (EZ : forall r, zfold Lv' Dv' m (sl m) r = zfold Lv Dv m (sl m) r).
    { intros r. apply zfold_ext; intros c Hc; apply (sl_lt m c ltac:(lia)) in Hc; unfold Lv', Dv'; destruct (Z.eqb_spec c m); auto; lia. }
    exists Lv', Dv'. split.
    2:{ intros k Hk Fk. unfold Dv', Lv'. destruct (Z.eqb_spec k m); [congruence|]. auto. }
    intros k Hk Fk. destruct (Z.eq_dec k m) as [->|].
    + split.
      * rewrite EZ. unfold Dv'. rewrite Z.eqb_refl. reflexivity.
      * intros r _. rewrite EZ. unfold Dv', Lv'. rewrite Z.eqb_refl. unfold Lm, d.
        destruct (Hdiv (zfold Lv Dv m (sl m) r) (zfold Lv Dv m (sl m) m)) as [q Eq]. rewrite Eq. reflexivity.
    + eapply LCol_ext; [| | |apply (H k); auto; lia]; try lia; intros.
      * unfold Lv'. destruct (Z.eqb_spec c m); [lia|auto].
      * unfold Dv'. destruct (Z.eqb_spec c m); [lia|auto].
Qed.

(** ** The arrays *)

Variables (Li Lp : arr Z).
Hypothesis HLi : forall i, 0 <= i < n -> holds Li (Lpf i) (lrows n i).
Hypothesis HLl : Lpf n <= zlen Li.
Hypothesis HLp : vec Lp (n + 1) Lpf.
Variables (Lv : Z -> Z -> F) (Dv : Z -> F).
Hypothesis HC : forall k, 0 <= k < n -> fl k = true -> LCol k Lv Dv.

(** Rows of column [c] that the cursor has passed before step [k]. *)
Definition passed (k c : Z) : list Z := filter (fun r => negb (fl r) || (r <? k)) (lrows n c).

Lemma lrows_lt k c r : In r (lrows k c) -> r < k.
Proof. intros H. apply in_lrows in H. lia. Qed.

Lemma lrows_after k c rest : 0 <= k < n -> lrows n c = lrows k c ++ k :: rest -> forall r, In r rest -> k < r < n /\ In c (pl r).
Proof.
  intros Hk E r Hr.
  assert (Hin : In r (lrows n c)) by (rewrite E; apply in_or_app; right; right; auto).
  apply in_lrows in Hin. destruct Hin as [Hrn Hin]. split; auto. split; [|lia].
  pose proof (NoDup_lrows A n col Pf Qf par n c) as ND. rewrite E in ND.
  assert (~ r <= k); [|lia]. intros Hle. destruct (Z.eq_dec r k) as [->|].
  - apply NoDup_remove_2 in ND. apply ND. apply in_or_app. auto.
  - assert (Hr2 : In r (lrows k c)) by (apply in_lrows; split; [lia|auto]).
    apply in_split in Hr2. destruct Hr2 as [u1 [u2 Eu]]. rewrite Eu, <- app_assoc in ND. cbn [app] in ND.
    apply NoDup_remove_2 in ND. apply ND. apply in_or_app. right. apply in_or_app. right. right. auto.
Qed.

Lemma passed_slot k c : 0 <= k < n -> fl k = true -> In c (pl k) -> passed k c = lrows k c.
Proof.
  intros Hk Fk Hc. destruct (lrows_split A n col Pf Qf par k c Hk Hc) as [rest E]. unfold passed. rewrite E, filter_app. cbn [filter].
  rewrite (filter_all _ (lrows k c)).
  2:{ intros r Hr. apply lrows_lt in Hr. destruct (Z.ltb_spec r k); [|lia]. apply orb_true_r. }
  rewrite Fk. cbn [negb orb]. destruct (Z.ltb_spec k k); [lia|].
  rewrite filter_none; [apply app_nil_r|]. intros r Hr. destruct (lrows_after k c rest Hk E r Hr) as [Hr1 Hr2].
  rewrite (flag_later c k r) by (auto; lia). destruct (Z.ltb_spec r k); [lia|]. reflexivity.
Qed.

Lemma passed_next k c : 0 <= k < n -> In c (pl k) -> fl k = true -> passed (k + 1) c = passed k c ++ [k].
Proof.
  intros Hk Hc Fk. rewrite (passed_slot k c) by auto.
  destruct (lrows_split A n col Pf Qf par k c Hk Hc) as [rest E]. unfold passed. rewrite E, filter_app. cbn [filter].
  rewrite (filter_all _ (lrows k c)).
  2:{ intros r Hr. apply lrows_lt in Hr. destruct (Z.ltb_spec r (k + 1)); [|lia]. apply orb_true_r. }
  destruct (Z.ltb_spec k (k + 1)); [|lia]. rewrite orb_true_r.
  rewrite filter_none; auto. intros r Hr. destruct (lrows_after k c rest Hk E r Hr) as [Hr1 Hr2].
  rewrite (flag_later c k r) by (auto; lia). destruct (Z.ltb_spec r (k + 1)); [lia|]. reflexivity.
Qed.

Lemma passed_other k c : 0 <= k < n -> (In c (pl k) -> fl k = false) -> passed (k + 1) c = passed k c.
Proof.
  intros Hk Hc. unfold passed. apply filter_ext_in. intros r Hr. apply in_lrows in Hr. destruct Hr as [Hr Hin].
  destruct (Z.eq_dec r k) as [->|]; [rewrite (Hc Hin); reflexivity|].
  f_equal. destruct (Z.ltb_spec r (k + 1)), (Z.ltb_spec r k); auto; lia.
Qed.

(** Right after its own step the cursor of a column stands behind its unflagged rows. *)
Lemma passed_own c : 0 <= c < n -> passed (c + 1) c = filter (fun r => negb (fl r)) (lrows n c).
Proof.
  intros Hc. apply filter_ext_in. intros r Hr. apply in_lrows in Hr. destruct Hr as [Hr Hin].
  apply (pl_in A n col Pf Qf par HF) in Hin; [|lia]. destruct (Z.ltb_spec r (c + 1)); [lia|]. apply orb_false_r.
Qed.

Lemma passed_own_flag c : 0 <= c < n -> fl c = true -> passed (c + 1) c = [].
Proof.
  intros Hc Fc. rewrite passed_own by auto. apply filter_none. intros r Hr. apply in_lrows in Hr. destruct Hr as [Hr Hin].
  rewrite (flag_up r c) by auto. reflexivity.
Qed.

(** Unflagged rows come first. *)
Lemma lrows_prefix c : 0 <= c < n -> exists a b, lrows n c = a ++ b /\
  (forall r, In r a -> fl r = false) /\ (forall r, In r b -> fl r = true).
Proof.
  intros Hc.
  assert (G : forall d lo, d = Z.to_nat (n - lo) -> 0 <= lo -> (forall r, 0 <= r < lo -> In c (pl r) -> fl r = false) ->
    exists a b, filter (fun r => inb c (pl r)) (zr lo n) = a ++ b /\ (forall r, In r a -> fl r = false) /\ (forall r, In r b -> fl r = true)).
  2:{ apply (G _ 0 eq_refl); [lia|]. intros; lia. }
  induction d as [|d IH]; intros lo Ed Hlo Hb.
  - exists [], []. rewrite zr_nil by lia. split; [reflexivity|]. split; intros r [].
  - rewrite zr_cons by lia. cbn [filter]. destruct (inb c (pl lo)) eqn:E.
    + apply inb_true in E. destruct (fl lo) eqn:Fl.
      * exists [], (lo :: filter (fun r => inb c (pl r)) (zr (lo + 1) n)). split; auto. split; [intros r []|].
        intros r [<-|Hr]; auto. apply filter_In in Hr. destruct Hr as [Hr Hin]. apply in_zr in Hr. apply inb_true in Hin.
        apply (flag_later c lo r); auto; lia.
      * destruct (IH (lo + 1) ltac:(lia) ltac:(lia)) as [a [b [Eq [Ha Hbb]]]].
        { intros r Hr Hin. destruct (Z.eq_dec r lo); [subst; auto|]. apply Hb; auto. lia. }
        exists (lo :: a), b. rewrite Eq. split; auto. split; auto. intros r [<-|Hr]; auto.
    + apply inb_false in E. apply IH; try lia. intros r Hr Hin. destruct (Z.eq_dec r lo); [subst; tauto|]. apply Hb; auto. lia.
Qed.

(** Between the columns of step [k]. *)
Definition LUpd (k : Z) (l1 : list Z) (st : arr Z * arr F) : Prop :=
  let '(work, Y) := st in
  zlen work = n /\ zlen Y = n /\
  (forall c, 0 <= c < k -> rd work c = Ok (Lpf c + zlen (passed (if inb c l1 then k + 1 else k) c))) /\
  (forall c, k <= c < n -> rd work c = Ok (Lpf c)) /\
  (forall r, 0 <= r < n -> rd Y r = Ok (if r <? k then zero else zfold Lv Dv k l1 r)).

Lemma left_update_ok Lti (Lx D : arr F) jj k l1 c l2 st :
  0 <= k < n -> fl k = true -> sl k = l1 ++ c :: l2 -> rd Lti jj = Ok c ->
  (forall t r, nth_error (lrows n c) t = Some r -> rd Lx (Lpf c + Z.of_nat t) = Ok (Lv r c)) ->
  rd D c = Ok (Dv c) ->
  LUpd k l1 st -> wp (left_update A Lti Li Lp Lx D jj st) (LUpd k (l1 ++ [c])).
Proof.
  intros Hk Fk E Ec HLx HD HS. destruct st as [work Y]. destruct HS as [LW [LY [RW [RW' RY]]]].
  assert (Hin : In c (sl k)) by (rewrite E; apply in_elt).
  pose proof (sl_lt k c Hk Hin) as Hc.
  assert (Hpc : In c (pl k)) by (apply (in_sl A n col Pf Qf par HF); auto).
  destruct (sl_split A n col Pf Qf par _ _ _ _ E) as [Hl1 _].
  assert (Hnc : ~ In c l1) by (intros H; apply Hl1 in H; lia).
  pose proof Hnc as Hnc'. apply inb_false in Hnc'.
  destruct (lrows_split A n col Pf Qf par k c Hk Hpc) as [rest Er].
  unfold left_update. wb. eapply wp_rd; [exact Ec|].
  wb. eapply wp_rd; [rewrite RW by lia; rewrite Hnc', passed_slot by auto; reflexivity|].
  wb. apply wp_wr; [lia|]. intros work1 LW1 RW1.
  wb. eapply wp_rd.
  { apply HLx with (t := length (lrows k c)). rewrite Er, nth_error_app2, Nat.sub_diag by lia. reflexivity. }
  wb. eapply wp_rd; [exact HD|].
  wb. eapply wp_rd; [apply HLp; lia|].
  assert (Hlen : Lpf (c + 1) = Lpf c + zlen (lrows k c) + zlen (k :: rest)).
  { rewrite Lpf_succ by lia. unfold lnzf. rewrite <- zlen_lrows, Er, zlen_app. lia. }
  assert (Hrows : forall r, In r (k :: rest) -> k <= r < n /\ In c (pl r)).
  { intros r [<-|Hr]; [split; [lia|auto]|]. destruct (lrows_after k c rest Hk Er r Hr). split; [lia|auto]. }
  assert (NDr : NoDup (k :: rest)).
  { pose proof (NoDup_lrows A n col Pf Qf par n c) as ND. rewrite Er in ND.
    revert ND. generalize (lrows k c). induction l as [|x l IHl]; cbn [app]; intros ND; auto.
    apply NoDup_cons_iff in ND. apply IHl, ND. }
  set (g := fun r => if r <? k then zero else zfold Lv Dv k l1 r) in *.
  wb. eapply (wp_list Li (Lpf c + zlen (lrows k c)) _ (k :: rest) (fun done Y' => zlen Y' = n /\
    forall r, 0 <= r < n -> rd Y' r =
      Ok (if inb r done then fsub A (g r) (fmul A (Lv r c) (fmul A (Lv k c) (Dv c))) else g r))).
  { intros t x Hx. rewrite <- Z.add_assoc. replace (zlen (lrows k c) + Z.of_nat t) with (Z.of_nat (length (lrows k c) + t)) by (unfold zlen; lia).
    apply (HLi c ltac:(lia)). rewrite Er, nth_error_app2 by lia. replace (length (lrows k c) + t - length (lrows k c))%nat with t by lia. exact Hx. }
  { lia. }
  { split; auto. }
  { intros done r rest' Y1 Ed Rr [LY1 RY1]. wb. eapply wp_rd; [exact Rr|].
    assert (Hr : In r (k :: rest)) by (rewrite Ed; apply in_elt).
    assert (Hnd : ~ In r done).
    { intros H. rewrite Ed in NDr. apply NoDup_remove_2 in NDr. apply NDr. apply in_or_app. auto. }
    destruct (Hrows r Hr) as [Hr1 Hr2].
    wb. eapply wp_rd; [apply RY1; lia|]. pose proof Hnd as Hnd'. apply inb_false in Hnd'. rewrite Hnd'.
    wb. eapply wp_rd.
    { replace (Lpf c + zlen (lrows k c) + zlen done) with (Lpf c + Z.of_nat (length (lrows k c) + length done)) by (unfold zlen; lia).
      apply HLx with (r := r). rewrite Er, nth_error_app2 by lia.
      replace (length (lrows k c) + length done - length (lrows k c))%nat with (length done) by lia.
      rewrite Ed, nth_error_app2, Nat.sub_diag by lia. reflexivity. }
    apply wp_wr; [lia|]. intros Y2 LY2 RY2. split; [lia|]. intros x Hx. rewrite RY2, inb_snoc.
    destruct (Z.eqb_spec x r) as [->|]; [rewrite orb_true_r; reflexivity|]. rewrite orb_false_r. apply RY1; auto. }
  intros Y1 [LY1 RY1]. wok. split; [lia|]. split; [lia|]. split; [|split].
  - intros x Hx. rewrite RW1, inb_snoc. destruct (Z.eqb_spec x c) as [->|].
    + rewrite orb_true_r. f_equal. rewrite passed_next, passed_slot, zlen_app, zlen_cons, zlen_nil by auto. lia.
    + rewrite orb_false_r. apply RW. lia.
  - intros x Hx. rewrite RW1. destruct (Z.eqb_spec x c); [lia|]. auto.
  - intros r Hr. rewrite RY1 by auto. unfold zfold. rewrite fold_left_app. cbn [fold_left]. fold (zfold Lv Dv k l1 r).
    unfold g. destruct (Z.ltb_spec r k) as [Hlt|Hge].
    + assert (Hn0 : inb r (k :: rest) = false) by (apply inb_false; intros H; apply Hrows in H; lia). rewrite Hn0. reflexivity.
    + destruct (inb c (pl r)) eqn:Ecr.
      * apply inb_true in Ecr. assert (Hy : inb r (k :: rest) = true); [|rewrite Hy; reflexivity].
        apply inb_true. assert (Hin2 : In r (lrows n c)) by (apply in_lrows; auto). rewrite Er in Hin2.
        apply in_app_or in Hin2. destruct Hin2 as [H|H]; auto. apply lrows_lt in H. lia.
      * apply inb_false in Ecr. assert (Hy : inb r (k :: rest) = false); [|rewrite Hy; reflexivity].
        apply inb_false. intros H. apply Hrows in H. tauto.
Qed.

Lemma left_scatter_ok Ap Ai (Ax : arr F) P Pinv k Y :
  0 <= k < n -> Csc Ap Ai Ax n col -> rows_in n n col -> isperm n Pf Qf ->
  pget n P Pf -> pget n Pinv Qf ->
  zlen Y = n -> (forall r, 0 <= r < n -> rd Y r = Ok zero) ->
  wp (left_scatter A Ap Ai Ax P Pinv k Y) (fun Y' => zlen Y' = n /\
    (forall r, 0 <= r < n -> rd Y' r = Ok (if r <? k then zero else a0 k r))).
Proof.
  intros Hk C HR HP HgP HgQ LY RY. unfold left_scatter.
  wb. rewrite (HgP k Hk). wok. pose proof (pf_range _ _ _ HP k Hk) as HPk.
  wb. eapply wp_rd; [apply (csc_jc _ _ _ _ _ C); lia|].
  wb. eapply wp_rd; [apply (csc_jc _ _ _ _ _ C); lia|].
  eapply (wp_col _ _ _ _ _ (Pf k) (fun done Y' => zlen Y' = n /\
    (forall r, 0 <= r < n -> rd Y' r = Ok (if r <? k then zero else
       (fold_left (fun acc e => if fst e =? r then snd e else acc)
             (map (fun e => (Qf (fst e), snd e)) done) zero))))); eauto.
  - split; auto. intros r Hr. cbn [map fold_left]. destruct (r <? k); auto.
  - intros done r v rest Y1 E R1 R2 [LY1 RY1].
    wb. eapply wp_rd; [exact R1|].
    assert (Hr : 0 <= r < n) by (eapply HR; [exact HPk|rewrite E; apply in_elt]).
    wb. rewrite (HgQ r Hr). wok. pose proof (qf_range _ _ _ HP r Hr) as HQ.
    destruct (Z.leb_spec k (Qf r)) as [Hle|Hgt].
    + wb. eapply wp_rd; [exact R2|].
      apply wp_wr; [lia|]. intros Y2 LY2 RY2. split; [lia|].
      intros x Hx. rewrite map_app, fold_left_app. cbn [map fold_left fst snd]. rewrite RY2, Z.eqb_sym.
      destruct (Z.eqb_spec (Qf r) x) as [<-|].
      * destruct (Z.ltb_spec (Qf r) k); [lia|]. reflexivity.
      * apply RY1; auto.
    + wok. split; [lia|]. intros x Hx. rewrite map_app, fold_left_app. cbn [map fold_left fst snd].
      rewrite RY1 by auto. destruct (Z.ltb_spec x k); auto. destruct (Z.eqb_spec (Qf r) x); [lia|]. reflexivity.
Qed.

(** Before step [k]. *)
Definition LSt (k : Z) (st : arr Z * arr F * arr F * arr F) : Prop :=
  let '(work, Lx, D, Y) := st in
  zlen work = n /\ Lpf n <= zlen Lx /\ zlen D = n /\ zlen Y = n /\
  (forall c, 0 <= c < k -> rd work c = Ok (Lpf c + zlen (passed k c))) /\
  (forall c, k <= c < n -> rd work c = Ok (Lpf c)) /\
  (forall c t r, 0 <= c < n -> nth_error (lrows n c) t = Some r -> fl c = false \/ c < k -> rd Lx (Lpf c + Z.of_nat t) = Ok (Lv r c)) /\
  (forall c, 0 <= c < n -> fl c = false \/ c < k -> rd D c = Ok (Dv c)) /\
  (forall r, 0 <= r < n -> rd Y r = Ok zero).

Variables (Ap Ai : arr Z) (Ax : arr F) (Ltp Lti : arr Z) (P Pinv : option (arr Z)) (U : arr Z) (tp : Z -> Z).
Hypothesis HCsc : Csc Ap Ai Ax n col.
Hypothesis HR : rows_in n n col.
Hypothesis HP : isperm n Pf Qf.
Hypothesis HgP : pget n P Pf.
Hypothesis HgQ : pget n Pinv Qf.
Hypothesis HLtp : vec Ltp (n + 1) tp.
Hypothesis Htp : forall k, 0 <= k < n -> tp (k + 1) = tp k + zlen (sl k).
Hypothesis HLti : forall k, 0 <= k < n -> holds Lti (tp k) (sl k).
Hypothesis HU : forall k, 0 <= k < n -> exists u, rd U k = Ok u /\ fl k = (u =? n).
(* entries below the diagonal of a column belong to the pattern of the factor *)
Hypothesis Hlow : forall k r, 0 <= k < r -> r < n -> In r (rows k) -> In k (pl r).
(* a column without flagged rows is followed by a stored entry *)
Hypothesis Hroom : forall c, 0 <= c < n -> fl c = false -> (forall r, In r (lrows n c) -> fl r = false) -> Lpf (c + 1) < Lpf n.

Lemma zfold_outside k r : 0 <= k < r -> r < n -> ~ In k (pl r) -> zfold Lv Dv k (sl k) r = zero.
Proof.
  intros Hk Hr Hn. unfold zfold.
  assert (G : forall l acc, (forall c, In c l -> In c (sl k)) ->
    fold_left (fun acc c => if inb c (pl r) then fsub A acc (fmul A (Lv r c) (fmul A (Lv k c) (Dv c))) else acc) l acc = acc).
  { induction l as [|c l IH]; intros acc Hl; cbn [fold_left]; auto. destruct (inb c (pl r)) eqn:E.
    - exfalso. apply Hn. apply inb_true in E. apply (fill k r c); auto. apply (in_sl A n col Pf Qf par HF); [lia|]. apply Hl. left. auto.
    - apply IH. intros x Hx. apply Hl. right. auto. }
  rewrite G by auto. unfold a0.
  assert (G2 : forall (l : list (Z * F)) acc, (forall e, In e l -> fst e <> r) ->
    fold_left (fun acc e => if fst e =? r then snd e else acc) l acc = acc).
  { induction l as [|e l IH]; intros acc Hl; cbn [fold_left]; auto.
    destruct (Z.eqb_spec (fst e) r) as [H|]; [exfalso; eapply Hl; [left; reflexivity|exact H]|].
    apply IH. intros x Hx. apply Hl. right. auto. }
  apply G2. intros e He Efe. apply Hn. apply Hlow; auto.
  unfold bcol in He. apply in_map_iff in He. destruct He as [e' [Ee He]]. subst e. cbn [fst] in Efe.
  unfold brows. apply in_map_iff. exists e'. auto.
Qed.

Lemma left_skip_ok c b hi : 0 <= c < n -> hi = Lpf (c + 1) ->
  (forall r, In r b -> fl r = true) ->
  (b = [] -> hi < Lpf n) ->
  forall a2 a1 fuel work, lrows n c = a1 ++ a2 ++ b -> (forall r, In r a2 -> fl r = false) ->
  (length a2 <= fuel)%nat -> zlen work = n -> rd work c = Ok (Lpf c + zlen a1) ->
  wp (left_skip fuel n U Li hi c (Lpf c + zlen a1) work) (fun work' => zlen work' = n /\
    rd work' c = Ok (Lpf c + zlen a1 + zlen a2) /\ forall x, x <> c -> rd work' x = rd work x).
Proof.
  intros Hc -> Hb Hroomc. induction a2 as [|r a2 IH]; intros a1 fuel work E Ha Hf LW RW.
  - cbn [app] in E.
    assert (Hl : Lpf (c + 1) = Lpf c + zlen a1 + zlen b).
    { rewrite Lpf_succ by lia. unfold lnzf. rewrite <- zlen_lrows, E, zlen_app. lia. }
    assert (Hrd : exists r, rd Li (Lpf c + zlen a1) = Ok r /\ 0 <= r < n /\ (b <> [] -> fl r = true)).
    { destruct b as [|r b].
      - rewrite zlen_nil in Hl. specialize (Hroomc eq_refl).
        assert (Hq : 0 <= Lpf c + zlen a1 < start (lcol A n col Pf Qf par Lv) n).
        { rewrite lcol_start. pose proof (Lpf_nonneg A n col Pf Qf par c). pose proof (zlen_nonneg a1). lia. }
        destruct (start_decompose _ n _ ltac:(lia) Hq) as [j [t [Hj [Ht Eq]]]].
        destruct (nth_error (lrows n j) (Z.to_nat t)) as [r|] eqn:Er.
        2:{ apply nth_error_None in Er. unfold lcol in Ht. rewrite zlen_map in Ht. unfold zlen in Ht. lia. }
        exists r. rewrite Eq, lcol_start. replace t with (Z.of_nat (Z.to_nat t)) by lia.
        split; [apply (HLi j Hj); auto|]. apply nth_error_In in Er. apply in_lrows in Er. split; [lia|tauto].
      - exists r. split; [eapply (holds_rd Li (Lpf c) a1 r b); rewrite <- E; apply HLi; auto|].
        assert (Hin : In r (lrows n c)) by (rewrite E; apply in_elt). apply in_lrows in Hin.
        split; [lia|]. intros _. apply Hb. left. auto. }
    destruct Hrd as [r [Er [Hr Hfl]]]. destruct (HU r Hr) as [u [Eu Fu]].
    destruct fuel; cbn [left_skip]; wb.
    all: eapply wp_rd; [exact Er|]; wb; eapply wp_rd; [exact Eu|]; rewrite <- Fu.
    all: assert (Hstop : negb (fl r) && (Lpf c + zlen a1 <? Lpf (c + 1)) = false)
      by (destruct b as [|r' b]; [rewrite zlen_nil in Hl; destruct (Z.ltb_spec (Lpf c + zlen a1) (Lpf (c + 1))); [lia|apply andb_false_r]
                                 |rewrite Hfl by discriminate; reflexivity]); rewrite Hstop; wok.
    all: rewrite zlen_nil, Z.add_0_r; auto.
  - cbn [app] in E. destruct fuel as [|fuel]; [cbn in Hf; lia|]. cbn [left_skip]. wb.
    eapply wp_rd; [eapply (holds_rd Li (Lpf c) a1 r (a2 ++ b)); rewrite <- E; apply HLi; auto|].
    assert (Hin : In r (lrows n c)) by (rewrite E; apply in_elt). apply in_lrows in Hin. destruct Hin as [Hr _].
    destruct (HU r Hr) as [u [Eu Fu]]. wb. eapply wp_rd; [exact Eu|]. rewrite <- Fu, (Ha r) by (left; auto).
    assert (Hl : Lpf (c + 1) = Lpf c + zlen a1 + (zlen a2 + zlen b + 1)).
    { rewrite Lpf_succ by lia. unfold lnzf. rewrite <- zlen_lrows, E, zlen_app, zlen_cons, zlen_app. lia. }
    pose proof (zlen_nonneg a2). pose proof (zlen_nonneg b).
    destruct (Z.ltb_spec (Lpf c + zlen a1) (Lpf (c + 1))); [|lia]. cbn [negb andb].
    wb. eapply wp_rd; [exact RW|]. wb. apply wp_wr; [lia|]. intros work1 LW1 RW1.
    replace (Lpf c + zlen a1 + 1) with (Lpf c + zlen (a1 ++ [r])) by (rewrite zlen_app, zlen_cons, zlen_nil; lia).
    eapply wp_mono.
    { apply (IH (a1 ++ [r]) fuel work1).
      - rewrite <- app_assoc. exact E.
      - intros x Hx. apply Ha. right. auto.
      - cbn in Hf. lia.
      - lia.
      - rewrite RW1, Z.eqb_refl, zlen_app, zlen_cons, zlen_nil. f_equal. lia. }
    intros work2 [L2 [R2 R3]]. split; auto. rewrite R2, zlen_app, !zlen_cons, zlen_nil. split; [f_equal; lia|].
    intros x Hx. rewrite R3, RW1 by auto. destruct (Z.eqb_spec x c); [tauto|auto].
Qed.

Lemma left_col_ok k st : 0 <= k < n -> LSt k st ->
  wp (left_col A n Ap Ai Ax Ltp Lti Li Lp P Pinv U k st) (LSt (k + 1)).
Proof.
  intros Hk HS. destruct st as [[[work Lx] D] Y]. destruct HS as [LW [LLx [LD [LY [RW [RW' [RLx [RD RY]]]]]]]].
  unfold left_col. destruct (HU k Hk) as [u [Eu Fu]]. wb. eapply wp_rd; [exact Eu|].
  destruct (u =? n) eqn:Eun.
  2:{ wb. eapply wp_rd; [apply HLp; lia|]. wb. eapply wp_rd; [apply HLp; lia|].
      destruct (lrows_prefix k Hk) as [a [b [Eab [Ha Hb]]]].
      wb. eapply wp_mono.
      { replace (Lpf k) with (Lpf k + zlen (@nil Z)) by (rewrite zlen_nil; lia).
        apply (left_skip_ok k b (Lpf (k + 1)) Hk eq_refl Hb) with (a2 := a); auto.
        - intros ->. rewrite app_nil_r in Eab. apply Hroom; auto. rewrite Eab. exact Ha.
        - assert (zlen (lrows n k) <= zlen Li).
          { rewrite zlen_lrows. pose proof (Lpf_succ A n col Pf Qf par k ltac:(lia)) as S1. unfold lnzf in S1.
            pose proof (Lpf_mono A n col Pf Qf par (k + 1) n ltac:(lia)). pose proof (Lpf_nonneg A n col Pf Qf par k). lia. }
          rewrite Eab, zlen_app in H. pose proof (zlen_nonneg b). unfold zlen in *. lia.
        - rewrite RW' by lia. rewrite zlen_nil, Z.add_0_r. reflexivity. }
      intros work1 [LW1 [RWk RWo]]. wok. rewrite zlen_nil, Z.add_0_r in RWk.
      split; [auto|]. split; [auto|]. split; [auto|]. split; [auto|]. split; [|split; [|split; [|split]]].
      - intros c Hc. destruct (Z.eq_dec c k) as [->|].
        + rewrite RWk, passed_own by auto. do 3 f_equal. rewrite Eab, filter_app, (filter_all _ a), (filter_none _ b).
          * symmetry. apply app_nil_r.
          * intros r Hr. rewrite Hb by auto. reflexivity.
          * intros r Hr. rewrite Ha by auto. reflexivity.
        + rewrite RWo, RW by lia. rewrite passed_other; auto.
      - intros c Hc. rewrite RWo by lia. apply RW'. lia.
      - intros c t r Hc Ht Hd. apply RLx; auto. destruct (Z.eq_dec c k); [subst; auto|]. destruct Hd; [auto|right; lia].
      - intros c Hc Hd. apply RD; auto. destruct (Z.eq_dec c k); [subst; auto|]. destruct Hd; [auto|right; lia].
      - auto. }
  wb. eapply wp_mono; [apply (left_scatter_ok Ap Ai Ax P Pinv k Y); auto|]. intros Y1 [LY1 RY1].
  wb. eapply wp_rd; [apply HLtp; lia|]. wb. eapply wp_rd; [apply HLtp; lia|].
  wb. eapply (wp_list Lti (tp k) _ (sl k) (LUpd k)).
  { apply HLti; auto. }
  { apply Htp; auto. }
  { split; [auto|]. split; [auto|]. split; [|split].
    - intros c Hc. apply RW; auto.
    - intros c Hc. apply RW'; auto.
    - intros r Hr. rewrite RY1 by auto. reflexivity. }
  { intros done c rest st E Er HS.
    assert (Hc : 0 <= c < k) by (apply (sl_lt k); auto; rewrite E; apply in_elt).
    eapply left_update_ok; eauto.
    - intros t r Ht. apply RLx; auto; lia.
    - apply RD; lia. }
  intros [work2 Y2] [LW2 [LY2 [RW2 [RW2' RY2]]]].
  assert (Hkk : (k <? k) = false) by (apply Z.ltb_irrefl).
  wb. eapply wp_rd; [rewrite RY2, Hkk by lia; reflexivity|].
  rewrite <- (lc_D _ _ _ (HC k Hk Fu)).
  wb. apply wp_wr; [lia|]. intros D1 LD1 RD1.
  wb. apply wp_wr; [lia|]. intros Y3 LY3 RY3.
  wb. eapply wp_rd; [rewrite RD1, Z.eqb_refl; reflexivity|].
  wb. eapply wp_rd; [apply HLp; lia|]. wb. eapply wp_rd; [apply HLp; lia|].
  pose proof (lc_L _ _ _ (HC k Hk Fu)) as HL.
  assert (Hrows : forall r, In r (lrows n k) -> k < r < n).
  { intros r Hr. apply in_lrows in Hr. destruct Hr as [Hr Hin]. apply (pl_in A n col Pf Qf par HF) in Hin; auto. lia. }
  pose proof (Lpf_nonneg A n col Pf Qf par k) as Hp0.
  assert (Hlen : Lpf (k + 1) = Lpf k + zlen (lrows n k)).
  { rewrite Lpf_succ by lia. unfold lnzf. rewrite <- zlen_lrows. reflexivity. }
  pose proof (Lpf_mono A n col Pf Qf par (k + 1) n ltac:(lia)) as Hmn.
  wb. eapply (wp_list Li (Lpf k) _ (lrows n k) (fun done st => let '(Lx', Y') := st in
    Lpf n <= zlen Lx' /\ zlen Y' = n /\
    (forall t r, nth_error done t = Some r -> rd Lx' (Lpf k + Z.of_nat t) = Ok (Lv r k)) /\
    (forall q, ~ Lpf k <= q < Lpf (k + 1) -> rd Lx' q = rd Lx q) /\
    (forall r, 0 <= r < n -> rd Y' r = Ok (if r <=? k then zero else if inb r done then zero else zfold Lv Dv k (sl k) r)))).
  { apply HLi; auto. }
  { exact Hlen. }
  { split; [auto|]. split; [lia|]. split; [intros [|t] r H; discriminate H|]. split; [auto|].
    intros r Hr. rewrite RY3. destruct (Z.eqb_spec r k) as [->|]; [rewrite Z.leb_refl; reflexivity|]. rewrite RY2 by auto.
    destruct (Z.ltb_spec r k), (Z.leb_spec r k); try lia; reflexivity. }
  { intros done r rest [Lx4 Y4] E Rr [L4 [LY4 [R4 [R4' RY4]]]]. unfold left_store. wb. eapply wp_rd; [exact Rr|].
    assert (Hin : In r (lrows n k)) by (rewrite E; apply in_elt). pose proof (Hrows r Hin) as Hr.
    assert (Hnd : ~ In r done).
    { intros H. pose proof (NoDup_lrows A n col Pf Qf par n k) as ND. rewrite E in ND. apply NoDup_remove_2 in ND.
      apply ND. apply in_or_app. auto. }
    apply inb_false in Hnd.
    wb. eapply wp_rd; [rewrite RY4 by lia; destruct (Z.leb_spec r k); [lia|]; rewrite Hnd; reflexivity|].
    wb. rewrite (HL r Hin). wok.
    assert (Hd : zlen done < zlen (lrows n k)) by (rewrite E, zlen_app, zlen_cons; pose proof (zlen_nonneg rest); lia).
    pose proof (zlen_nonneg done).
    wb. apply wp_wr; [lia|]. intros Lx5 L5 R5.
    wb. apply wp_wr; [lia|]. intros Y5 LY5 RY5. wok.
    split; [lia|]. split; [lia|]. split; [|split].
    - intros t x Ht. rewrite R5. destruct (Z.eqb_spec (Lpf k + Z.of_nat t) (Lpf k + zlen done)) as [Et|Et].
      + assert (t = length done) by (unfold zlen in Et; lia). subst t.
        rewrite nth_error_app2, Nat.sub_diag in Ht by lia. injection Ht as <-. reflexivity.
      + apply R4. assert (Hlt : (t < length (done ++ [r]))%nat) by (apply nth_error_Some; congruence).
        rewrite app_length in Hlt. cbn [length] in Hlt. rewrite nth_error_app1 in Ht by (unfold zlen in Et; lia). exact Ht.
    - intros q Hq. rewrite R5. destruct (Z.eqb_spec q (Lpf k + zlen done)); [lia|]. auto.
    - intros x Hx. rewrite RY5, inb_snoc. destruct (Z.eqb_spec x r) as [->|].
      + rewrite orb_true_r. destruct (r <=? k); reflexivity.
      + rewrite orb_false_r. auto. }
  intros [Lx6 Y6] [L6 [LY6 [R6 [R6' RY6]]]]. wok.
  split; [auto|]. split; [auto|]. split; [lia|]. split; [auto|]. split; [|split; [|split; [|split]]].
  - intros c Hc. destruct (Z.eq_dec c k) as [->|].
    + rewrite RW2' by lia. rewrite passed_own_flag by auto. rewrite zlen_nil, Z.add_0_r. reflexivity.
    + rewrite RW2 by lia. do 3 f_equal. destruct (inb c (sl k)) eqn:Ein; auto.
      apply inb_false in Ein. rewrite passed_other; auto. intros H. exfalso. apply Ein. apply (in_sl A n col Pf Qf par HF); auto.
  - intros c Hc. apply RW2'. lia.
  - intros c t r Hc Ht Hd. destruct (Z.eq_dec c k) as [->|]; [apply R6; auto|].
    assert (Hlt : Z.of_nat t < zlen (lrows n c)).
    { assert ((t < length (lrows n c))%nat) by (apply nth_error_Some; congruence). unfold zlen. lia. }
    assert (Hlc : Lpf (c + 1) = Lpf c + zlen (lrows n c)).
    { rewrite Lpf_succ by lia. unfold lnzf. rewrite <- zlen_lrows. reflexivity. }
    rewrite R6'.
    + apply RLx; auto. destruct Hd; [auto|right; lia].
    + destruct (Z.lt_ge_cases c k).
      * pose proof (Lpf_mono A n col Pf Qf par (c + 1) k ltac:(lia)). lia.
      * pose proof (Lpf_mono A n col Pf Qf par (k + 1) c ltac:(lia)). lia.
  - intros c Hc Hd. rewrite RD1. destruct (Z.eqb_spec c k) as [->|]; auto. apply RD; auto. destruct Hd; [auto|right; lia].
  - intros r Hr. rewrite RY6 by auto. destruct (Z.leb_spec r k); auto. destruct (inb r (lrows n k)) eqn:Ein; auto. f_equal.
    apply inb_false in Ein. apply zfold_outside; [lia|lia|]. intros H1. apply Ein. apply in_lrows. auto.
Qed.

Lemma left_ok Lx D Y : 0 <= n -> Lpf n <= zlen Lx -> zlen D = n -> zlen Y = n ->
  (forall c t r, 0 <= c < n -> nth_error (lrows n c) t = Some r -> fl c = false -> rd Lx (Lpf c + Z.of_nat t) = Ok (Lv r c)) ->
  (forall c, 0 <= c < n -> fl c = false -> rd D c = Ok (Dv c)) ->
  (forall r, 0 <= r < n -> rd Y r = Ok zero) ->
  wp (LDL_cache_numeric A n Ap Ai Ax Ltp Lti Li Lp Lx D Y P Pinv U) (fun res => let '(d, (Lx', D', Y')) := res in
    d = n /\ exists work, LSt n (work, Lx', D', Y')).
Proof.
  intros Hn LLx LD LY RLx RD RY. unfold LDL_cache_numeric.
  wb. eapply (wp_for_le (fun k work => zlen work = n /\ forall c, 0 <= c < k -> rd work c = Ok (Lpf c))); auto.
  { split; [apply zlen_malloc; lia|]. intros; lia. }
  { intros k work Hk [L R]. wb. eapply wp_rd; [apply HLp; lia|]. apply wp_wr; [lia|]. intros w2 L2 R2.
    split; [lia|]. intros c Hc. rewrite R2. destruct (Z.eqb_spec c k); [subst; auto|]. apply R. lia. }
  intros work [LW RW]. wb. eapply (wp_for_le LSt); auto.
  { split; [auto|]. split; [auto|]. split; [auto|]. split; [auto|]. split; [intros; lia|]. split; [auto|].
    split; [|split]; auto.
    - intros c t r Hc Ht [Hd|Hd]; [auto|lia].
    - intros c Hc [Hd|Hd]; [auto|lia]. }
  { intros k st Hk HS. apply left_col_ok; auto. }
  intros [[[w2 Lx2] D2] Y2] HS. wok. split; auto. exists w2. exact HS.
Qed.

End Left.
