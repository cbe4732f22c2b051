(** The input side of the ordering package: validation and preprocessing (claims C37, C38). *)
From Coq Require Import ZArith List Lia Bool.
From Verif Require Import Res Lists Spec SpecLink MAmd AmdBase.
Import ListNotations.
Open Scope Z_scope.
Open Scope res_scope.

(** ** AMD_valid *)

Section Valid.
Variables (nr nc : Z) (Ap Ai : arr Z) (ap ai : Z -> Z).
Hypothesis HAp : forall j, 0 <= j <= nc -> rd Ap j = Ok (ap j).
Hypothesis HAi : forall j k, 0 <= j < nc -> ap j <= k < ap (j + 1) -> rd Ai k = Ok (ai k).

Definition rows_ok (j : Z) : Prop := forall k, ap j <= k < ap (j + 1) -> 0 <= ai k < nr.
Definition strict (j : Z) : Prop := forall k, ap j <= k -> k + 1 < ap (j + 1) -> ai k < ai (k + 1).

(** What is known once the columns before j have been read. *)
Definition verdict (j result : Z) : Prop :=
  (result = AMD_OK /\ forall c, 0 <= c < j -> strict c) \/
  (result = AMD_OK_BUT_JUMBLED /\ exists c, 0 <= c < j /\ ~ strict c).

Lemma valid_col_ok j result : 0 <= j < nc -> ap j <= ap (j + 1) -> verdict j result ->
  wp (valid_col nr Ai (ap j) (ap (j + 1)) result) (fun '(bad, result') =>
    if bad : bool then ~ rows_ok j else rows_ok j /\ verdict (j + 1) result').
Proof.
  intros Hj Hm HV. unfold valid_col. wb.
  apply (wp_for_le (fun p '(bad, r, il) =>
    if bad : bool then ~ rows_ok j
    else (forall k, ap j <= k < p -> 0 <= ai k < nr) /\ (ap j < p -> il = ai (p - 1)) /\ (p = ap j -> il = EMPTY) /\
      ((r = result /\ forall k, ap j <= k -> k + 1 < p -> ai k < ai (k + 1)) \/
       (r = AMD_OK_BUT_JUMBLED /\ exists k, ap j <= k /\ k + 1 < p /\ ~ ai k < ai (k + 1))))); auto.
  - split; [intros; lia|]. split; [intros; lia|]. split; auto. left. split; auto. intros; lia.
  - intros p [[[|] r] il] Hp H; [exact H|]. destruct H as [H1 [H2 [H3 H4]]].
    wb. rewrite (HAi j p) by lia. wok.
    destruct (Z.ltb_spec (ai p) 0); cbn [orb]; [wok; intros A; specialize (A p Hp); lia|].
    destruct (Z.leb_spec nr (ai p)); [wok; intros A; specialize (A p Hp); lia|].
    wok. split.
    { intros k Hk. destruct (Z.eq_dec k p) as [->|]; [lia|apply H1; lia]. }
    split; [intros _; f_equal; lia|]. split; [intros; lia|].
    destruct (Z.eq_dec p (ap j)) as [->|Ne].
    + rewrite (H3 eq_refl). destruct (Z.leb_spec (ai (ap j)) EMPTY); [unfold EMPTY in *; lia|].
      destruct H4 as [[-> H4]|[_ [k [? [? _]]]]]; [|lia]. left. split; auto. intros; lia.
    + rewrite H2 by lia. destruct (Z.leb_spec (ai p) (ai (p - 1))).
      * right. split; auto. exists (p - 1). replace (p - 1 + 1) with p by lia. lia.
      * destruct H4 as [[-> H4]|[-> [k [? [? ?]]]]]; [left|right]; split; auto.
        -- intros k K1 K2. destruct (Z.eq_dec k (p - 1)) as [->|]; [replace (p - 1 + 1) with p by lia; lia|].
           apply H4; lia.
        -- exists k. repeat split; auto; lia.
  - intros [[[|] r] il] H; wok; [exact H|]. destruct H as [H1 [_ [_ H4]]]. split; [exact H1|].
    destruct H4 as [[-> H4]|[-> [k [K1 [K2 K3]]]]].
    + destruct HV as [[-> HV]|[-> [c [Hc V]]]].
      * left. split; auto. intros c Hc. destruct (Z.eq_dec c j) as [->|]; [exact H4|apply HV; lia].
      * right. split; auto. exists c. split; [lia|auto].
    + right. split; auto. exists j. split; [lia|]. intros A. apply K3, A; auto.
Qed.

Definition pointers_ok : Prop := ap 0 = 0 /\ 0 <= ap nc /\ forall j, 0 <= j < nc -> ap j <= ap (j + 1).

Lemma AMD_valid_ok : 0 <= nr -> 0 <= nc ->
  wp (AMD_valid nr nc Ap Ai) (fun r =>
    (r = AMD_INVALID /\ ~ (pointers_ok /\ forall j, 0 <= j < nc -> rows_ok j)) \/
    (pointers_ok /\ (forall j, 0 <= j < nc -> rows_ok j) /\ verdict nc r)).
Proof.
  intros Hr Hc. unfold AMD_valid.
  destruct (Z.ltb_spec nr 0); [lia|]. destruct (Z.ltb_spec nc 0); [lia|]. cbn [orb].
  wb. rewrite (HAp nc) by lia. wok. wb. rewrite (HAp 0) by lia. wok.
  destruct (Z.eqb_spec (ap 0) 0) as [E0|E0]; cbn [negb orb]; [|wok; left; split; auto; intros [[? _] _]; lia].
  destruct (Z.ltb_spec (ap nc) 0); [wok; left; split; auto; intros [[? [? _]] _]; lia|].
  wb. apply (wp_for_le (fun j '(bad, r) =>
    if bad : bool then ~ (pointers_ok /\ forall j, 0 <= j < nc -> rows_ok j)
    else (forall c, 0 <= c < j -> ap c <= ap (c + 1)) /\ (forall c, 0 <= c < j -> rows_ok c) /\ verdict j r)); auto.
  - split; [intros; lia|]. split; [intros; lia|]. left. split; auto. intros; lia.
  - intros j [[|] r] Hj I1; [exact I1|]. destruct I1 as [I1 [I2 I3]].
    wb. rewrite HAp by lia. wok. wb. rewrite HAp by lia. wok.
    destruct (Z.ltb_spec (ap (j + 1)) (ap j)).
    { wok. intros [[_ [_ A]] _]. specialize (A j Hj). lia. }
    eapply wp_mono; [apply (valid_col_ok j r); auto|]. intros [[|] r'] B.
    + intros [_ A]. apply B, A. auto.
    + destruct B as [B1 B2]. split; [|split; auto].
      * intros c C. destruct (Z.eq_dec c j) as [->|]; auto. apply I1; lia.
      * intros c C. destruct (Z.eq_dec c j) as [->|]; auto. apply I2; lia.
  - intros [[|] r] I1; wok; [left; auto|]. destruct I1 as [I1 [I2 I3]]. right. split; [|auto].
    repeat split; auto.
Qed.
End Valid.

(** The pointers can be read, and so can every index a column refers to. *)
Definition readable (n_col : Z) (Ap Ai : arr Z) : Prop :=
  filled Ap (n_col + 1) /\
  forall j a b k, 0 <= j < n_col -> rd Ap j = Ok a -> rd Ap (j + 1) = Ok b -> a <= k < b -> exists r, rd Ai k = Ok r.

Definition well_formed (n_row n_col : Z) (Ap Ai : arr Z) : Prop :=
  0 <= n_row /\ 0 <= n_col /\ exists nz, 0 <= nz /\ csc_pattern n_row n_col Ap Ai nz.

(** C37: the validity check tells malformed, well-formed and merely jumbled patterns apart. *)
Theorem C37_valid n_row n_col Ap Ai : readable n_col Ap Ai ->
  exists r, AMD_valid n_row n_col Ap Ai = Ok r /\
    (r = AMD_INVALID <-> ~ well_formed n_row n_col Ap Ai) /\
    (r = AMD_OK <-> well_formed n_row n_col Ap Ai /\ sorted_columns n_col Ap Ai) /\
    (r = AMD_OK_BUT_JUMBLED <-> well_formed n_row n_col Ap Ai /\ ~ sorted_columns n_col Ap Ai).
Proof.
  intros [HF HR]. destruct (Z.lt_ge_cases n_row 0) as [Hn|Hr].
  { exists AMD_INVALID. unfold AMD_valid. destruct (Z.ltb_spec n_row 0); [|lia]. cbn [orb]. split; auto.
    assert (~ well_formed n_row n_col Ap Ai) by (intros [? _]; lia).
    split; [tauto|]. split; (split; [unfold AMD_INVALID, AMD_OK, AMD_OK_BUT_JUMBLED; discriminate|tauto]). }
  destruct (Z.lt_ge_cases n_col 0) as [Hn|Hc].
  { exists AMD_INVALID. unfold AMD_valid. destruct (Z.ltb_spec n_col 0); [|lia]. rewrite orb_true_r. split; auto.
    assert (~ well_formed n_row n_col Ap Ai) by (intros [_ [? _]]; lia).
    split; [tauto|]. split; (split; [unfold AMD_INVALID, AMD_OK, AMD_OK_BUT_JUMBLED; discriminate|tauto]). }
  assert (HAp : forall j, 0 <= j <= n_col -> rd Ap j = Ok (get 0 Ap j)).
  { intros j Hj. destruct (HF j ltac:(lia)) as [v E]. rewrite (get_rd 0 _ _ _ E). auto. }
  assert (HAi : forall j k, 0 <= j < n_col -> get 0 Ap j <= k < get 0 Ap (j + 1) -> rd Ai k = Ok (get 0 Ai k)).
  { intros j k Hj Hk. destruct (HR j _ _ k Hj (HAp j ltac:(lia)) (HAp (j + 1) ltac:(lia)) Hk) as [v E].
    rewrite (get_rd 0 _ _ _ E). auto. }
  set (ap := get 0 Ap) in *. set (ai := get 0 Ai) in *.
  assert (W : well_formed n_row n_col Ap Ai <->
              pointers_ok n_col ap /\ forall j, 0 <= j < n_col -> rows_ok n_row ap ai j).
  { split.
    - intros [_ [_ [nz [Hnz HP]]]].
      assert (Em : forall j, 0 <= j < n_col -> ap j <= ap (j + 1)).
      { intros j Hj. destruct (cp_mono _ _ _ _ _ HP j Hj) as [a [b [E1 [E2 L]]]].
        unfold ap. rewrite (get_rd 0 _ _ _ E1), (get_rd 0 _ _ _ E2). auto. }
      assert (En : ap n_col = nz) by (apply get_rd, (cp_last _ _ _ _ _ HP)).
      assert (E0 : ap 0 = 0) by (apply get_rd, (cp_first _ _ _ _ _ HP)).
      pose proof (mono_steps ap n_col Em) as Mon.
      split; [repeat split; auto; lia|]. intros j Hj k Hk.
      pose proof (Mon 0 j ltac:(lia) ltac:(lia) ltac:(lia)). pose proof (Mon (j + 1) n_col ltac:(lia) ltac:(lia) ltac:(lia)).
      destruct (cp_rows _ _ _ _ _ HP k ltac:(lia)) as [r [E L]]. unfold ai. rewrite (get_rd 0 _ _ _ E). auto.
    - intros [[P1 [P2 P3]] P4]. split; [auto|]. split; auto. exists (ap n_col). split; auto. constructor.
      + rewrite HAp by lia. f_equal. auto.
      + intros j Hj. exists (ap j), (ap (j + 1)). split; [apply HAp; lia|]. split; [apply HAp; lia|auto].
      + apply HAp. lia.
      + intros k Hk. destruct (mono_find ap n_col k Hc ltac:(lia)) as [j [Hj Hjk]].
        exists (ai k). split; [apply (HAi j); auto|]. apply (P4 j); auto. }
  assert (Sx : sorted_columns n_col Ap Ai <-> forall j, 0 <= j < n_col -> strict ap ai j).
  { split.
    - intros H j Hj k K1 K2.
      destruct (H j _ _ k Hj (HAp j ltac:(lia)) (HAp (j + 1) ltac:(lia)) K1 K2) as [r [r' [E1 [E2 L]]]].
      unfold ai. rewrite (get_rd 0 _ _ _ E1), (get_rd 0 _ _ _ E2). auto.
    - intros H j a b k Hj Ea Eb K1 K2.
      assert (Aa : ap j = a) by (apply get_rd; auto). assert (Ab : ap (j + 1) = b) by (apply get_rd; auto). subst a b.
      exists (ai k), (ai (k + 1)). split; [apply (HAi j); auto; lia|]. split; [apply (HAi j); auto; lia|].
      apply (H j Hj); auto. }
  pose proof (AMD_valid_ok n_row n_col Ap Ai ap ai HAp HAi Hr Hc) as V.
  apply wp_exists in V. destruct V as [r [E V]]. exists r. split; auto.
  destruct V as [[-> V]|[V1 [V2 V3]]].
  - assert (~ well_formed n_row n_col Ap Ai) by tauto.
    split; [tauto|]. split; (split; [unfold AMD_INVALID, AMD_OK, AMD_OK_BUT_JUMBLED; discriminate|tauto]).
  - assert (WF : well_formed n_row n_col Ap Ai) by tauto.
    destruct V3 as [[-> V3]|[-> [c [Hcc V3]]]].
    + assert (sorted_columns n_col Ap Ai) by tauto.
      unfold AMD_INVALID, AMD_OK, AMD_OK_BUT_JUMBLED. split; [split; [discriminate|tauto]|].
      split; [tauto|split; [discriminate|tauto]].
    + assert (~ sorted_columns n_col Ap Ai) by (intros A; apply V3, Sx; auto).
      unfold AMD_INVALID, AMD_OK, AMD_OK_BUT_JUMBLED. split; [split; [discriminate|tauto]|].
      split; [split; [discriminate|tauto]|tauto].
Qed.

(** Concrete patterns with each of the three verdicts. *)
Theorem C37_case :
  AMD_valid 2 2 (full [0; 1; 3]) (full [1; 0; 1]) = Ok AMD_OK /\
  AMD_valid 2 2 (full [0; 1; 3]) (full [1; 1; 0]) = Ok AMD_OK_BUT_JUMBLED /\
  AMD_valid 2 2 (full [0; 1; 3]) (full [1; 1; 1]) = Ok AMD_OK_BUT_JUMBLED /\
  AMD_valid 2 2 (full [0; 1; 3]) (full [1; 2; 1]) = Ok AMD_INVALID /\
  AMD_valid 2 2 (full [0; 3; 2]) (full [0; 1; 1]) = Ok AMD_INVALID /\
  readable 2 (full [0; 1; 3]) (full [1; 2; 1]).
Proof.
  repeat (split; [vm_compute; reflexivity|]).
  split.
  - intros i Hi. apply rd_full_ok. unfold zlen. simpl. lia.
  - intros j a b k Hj Ea Eb Hk. apply rd_full_ok. unfold zlen. simpl.
    assert (E : j = 0 \/ j = 1) by lia. destruct E as [-> | ->]; cbv in Ea, Eb; injection Ea as <-; injection Eb as <-; lia.
Qed.

(** The readability hypothesis is needed: the indices are read before the pointers are known to be in order, so a
    pattern with a middle pointer beyond the end makes the check read outside the index array. *)
Theorem C37_checks_before_reading_refuted :
  exists Ap Ai, filled Ap 3 /\ rd Ap 2 = Ok 1 /\ filled Ai 1 /\ AMD_valid 2 2 Ap Ai = Ub OobRead.
Proof.
  exists (full [0; 2; 1]), (full [0]). split; [|split; [reflexivity|split; [|reflexivity]]];
    intros i Hi; apply rd_full_ok; unfold zlen; simpl; lia.
Qed.

(** ** AMD_preprocess *)

(** Sorted lists and prefix sums. *)
Lemma filter_zr_sorted (p : Z -> bool) hi : 0 <= hi -> forall s t d, (s < t)%nat -> (t < length (filter p (zr 0 hi)))%nat ->
  nth s (filter p (zr 0 hi)) d < nth t (filter p (zr 0 hi)) d.
Proof.
  intros Hh. pattern hi. apply (zr_ind _ 0); auto.
  - intros s t d Hst Ht. simpl in Ht. lia.
  - intros k Hk IH s t d Hst Ht. rewrite (zr_snoc 0 k) in * by lia. rewrite filter_app in *. simpl in *.
    destruct (p k) eqn:E; [|rewrite app_nil_r in *; apply IH; auto].
    rewrite app_length in Ht. simpl in Ht.
    assert (L : (s < length (filter p (zr 0 k)))%nat) by lia. rewrite (app_nth1 _ _ d L).
    destruct (Nat.lt_ge_cases t (length (filter p (zr 0 k)))) as [L2|L2].
    + rewrite (app_nth1 _ _ d L2). apply IH; auto.
    + rewrite (app_nth2 _ _ d L2). replace (t - _)%nat with O by lia. simpl.
      pose proof (nth_In (filter p (zr 0 k)) d L) as X. apply filter_In in X. destruct X as [X _]. apply in_zr in X. lia.
Qed.

Section Preprocess.
Variables (n nz : Z) (Ap Ai : arr Z) (ap ai : Z -> Z).
Hypothesis Hn : 0 <= n.
Hypothesis Hap0 : ap 0 = 0.
Hypothesis Hapn : ap n = nz.
Hypothesis Hmono : forall j, 0 <= j < n -> ap j <= ap (j + 1).
Hypothesis HAp : forall j, 0 <= j <= n -> rd Ap j = Ok (ap j).
Hypothesis HAi : forall k, 0 <= k < nz -> rd Ai k = Ok (ai k).
Hypothesis Hrows : forall k, 0 <= k < nz -> 0 <= ai k < n.

(** Does row i occur in column c before position p? *)
Definition occ (i c p : Z) : bool := existsb (fun k => ai k =? i) (zr (ap c) p).
Definition mem (i c : Z) : bool := occ i c (ap (c + 1)).
(** The columns before j in which row i occurs. *)
Definition rl (i j : Z) : list Z := filter (mem i) (zr 0 j).
Definition rlp (i j p : Z) : list Z := rl i j ++ if occ i j p then [j] else [].

Lemma occ_step i c p : ap c <= p -> occ i c (p + 1) = occ i c p || (ai p =? i).
Proof. intros H. unfold occ. rewrite zr_snoc by lia. rewrite existsb_app. simpl. now rewrite orb_false_r. Qed.

Lemma rl_step i j : 0 <= j -> rl i (j + 1) = rlp i j (ap (j + 1)).
Proof. intros H. unfold rl, rlp. rewrite zr_snoc, filter_app by lia. simpl. unfold mem at 2. destruct (occ _ _ _); auto. Qed.

Lemma rlp_start i j : rlp i j (ap j) = rl i j.
Proof. unfold rlp, occ. rewrite zr_nil by lia. simpl. apply app_nil_r. Qed.

Lemma rlp_step i j p : ap j <= p -> 
  rlp i j (p + 1) = if (ai p =? i) && negb (occ i j p) then rl i j ++ [j] else rlp i j p.
Proof.
  intros H. unfold rlp. rewrite occ_step by lia. destruct (occ i j p); simpl; [now rewrite andb_false_r|].
  destruct (ai p =? i); reflexivity.
Qed.

Lemma ap_nz j : 0 <= j <= n -> 0 <= ap j <= nz.
Proof.
  intros H. rewrite <- Hapn, <- Hap0 at 1. split; apply (mono_steps ap n); auto; lia.
Qed.

(** The test of Flag: Flag[i] = j exactly when row i occurs in column j before position p. *)
Definition flag_ok (f : Z -> Z) (j p : Z) : Prop := forall i, 0 <= i < n -> if occ i j p then f i = j else f i < j.

Lemma flag_start f j : (forall i, 0 <= i < n -> f i < j) -> flag_ok f j (ap j).
Proof. intros H i Hi. unfold occ. rewrite zr_nil by lia. simpl. auto. Qed.
Lemma flag_end f j : flag_ok f j (ap (j + 1)) -> forall i, 0 <= i < n -> f i < j + 1.
Proof. intros H i Hi. specialize (H i Hi). destruct (occ _ _ _); lia. Qed.
Lemma flag_same f j p : ap j <= p -> 0 <= ai p < n -> flag_ok f j p -> f (ai p) = j -> flag_ok f j (p + 1) /\ occ (ai p) j p = true.
Proof.
  intros Hp Hr H E. assert (X : occ (ai p) j p = true).
  { specialize (H (ai p) Hr). destruct (occ _ _ _); auto. lia. }
  split; auto. intros i Hi. rewrite occ_step by lia. specialize (H i Hi).
  destruct (Z.eqb_spec (ai p) i) as [<-|]; [|rewrite orb_false_r; auto]. rewrite X. auto.
Qed.
Lemma flag_new f j p : ap j <= p -> 0 <= ai p < n -> flag_ok f j p -> f (ai p) <> j ->
  flag_ok (fup f (ai p) j) j (p + 1) /\ occ (ai p) j p = false.
Proof.
  intros Hp Hr H E. assert (X : occ (ai p) j p = false).
  { specialize (H (ai p) Hr). destruct (occ _ _ _); auto. lia. }
  split; auto. intros i Hi. rewrite occ_step by lia. specialize (H i Hi). unfold fup.
  destruct (Z.eqb_spec (ai p) i) as [<-|Ne].
  - rewrite orb_true_r, Z.eqb_refl. auto.
  - rewrite orb_false_r. destruct (Z.eqb_spec i (ai p)); [congruence|auto].
Qed.

(** Row starts in the result. *)
Definition rp (i : Z) : Z := sumz (fun r => zlen (rl r n)) (zr 0 i).

Lemma rp_0 : rp 0 = 0.
Proof. reflexivity. Qed.
Lemma rp_step i : 0 <= i -> rp (i + 1) = rp i + zlen (rl i n).
Proof. intros H. unfold rp. rewrite zr_snoc, sumz_app by lia. simpl. lia. Qed.
Lemma rp_mono a b : 0 <= a <= b -> rp a <= rp b.
Proof. intros H. unfold rp. rewrite (zr_app 0 a b), sumz_app by lia.
  assert (0 <= sumz (fun r => zlen (rl r n)) (zr a b)); [|lia]. apply sumz_nonneg. intros; apply zlen_nonneg. Qed.

Lemma column_count l : (forall k, In k l -> 0 <= ai k < n) ->
  sumz (fun i => if existsb (fun k => ai k =? i) l then 1 else 0) (zr 0 n) <= zlen l.
Proof.
  induction l as [|k l IH]; intros H; simpl.
  - rewrite sumz_zero; auto. unfold zlen; simpl; lia.
  - rewrite zlen_cons.
    pose proof (sumz_delta (ai k) 1 (zr 0 n) (NoDup_zr 0 n) (proj2 (in_zr _ _ _) (H k (or_introl eq_refl)))) as D.
    specialize (IH (fun k Hk => H k (or_intror Hk))).
    apply Z.le_trans with
      (sumz (fun i => (if existsb (fun k => ai k =? i) l then 1 else 0) + (if i =? ai k then 1 else 0)) (zr 0 n)).
    + apply sumz_le. intros x _. rewrite (Z.eqb_sym (ai k)). destruct (x =? ai k), (existsb _ _); simpl; lia.
    + rewrite sumz_plus, D. lia.
Qed.

Lemma rp_total : rp n <= nz.
Proof.
  unfold rp. rewrite (sumz_ext _ (fun r => sumz (fun c => if mem r c then 1 else 0) (zr 0 n))).
  2:{ intros r _. unfold rl. rewrite <- cnt_filter. reflexivity. }
  rewrite sumz_swap.
  assert (H : forall c, 0 <= c -> c <= n -> sumz (fun c => sumz (fun r => if mem r c then 1 else 0) (zr 0 n)) (zr 0 c) <= ap c).
  { intros c Hc. pattern c. apply (zr_ind _ 0); auto; [simpl; lia|]. intros k Hk IH Hkn. rewrite zr_snoc, sumz_app by lia. simpl.
    assert (X : sumz (fun r => if mem r k then 1 else 0) (zr 0 n) <= zlen (zr (ap k) (ap (k + 1)))).
    { apply column_count. intros p Hp. apply in_zr in Hp. apply Hrows. pose proof (ap_nz k ltac:(lia)).
      pose proof (ap_nz (k + 1) ltac:(lia)). lia. }
    rewrite zlen_zr in X. specialize (Hmono k ltac:(lia)). specialize (IH ltac:(lia)). lia. }
  rewrite <- Hapn. apply H; lia.
Qed.

(** A prefix of the row list. *)
Lemma rl_prefix i j : 0 <= j <= n -> exists t, rl i n = rl i j ++ t.
Proof. intros H. exists (filter (mem i) (zr j n)). unfold rl. rewrite (zr_app 0 j n) by lia. apply filter_app. Qed.
Lemma rl_nth i j p : 0 <= j < n -> ap j <= p < ap (j + 1) -> ai p = i -> 
  zlen (rl i j) < zlen (rl i n) /\ nth (Z.to_nat (zlen (rl i j))) (rl i n) 0 = j.
Proof.
  intros Hj Hp E. destruct (rl_prefix i (j + 1) ltac:(lia)) as [t Et].
  assert (X : rl i (j + 1) = rl i j ++ [j]).
  { rewrite rl_step by lia. unfold rlp. replace (occ i j (ap (j + 1))) with true; auto. symmetry.
    apply existsb_exists. exists p. split; [apply in_zr; auto|now apply Z.eqb_eq]. }
  rewrite Et, X, !zlen_app, zlen_cons, zlen_nil. split; [pose proof (zlen_nonneg t); lia|].
  unfold zlen. rewrite Nat2Z.id, <- app_assoc, app_nth2 by lia. rewrite Nat.sub_diag. reflexivity.
Qed.

Definition inRange (Ri : arr Z) (w : Z -> Z) : Prop :=
  forall i t, 0 <= i < n -> 0 <= t < w i - rp i -> rd Ri (rp i + t) = Ok (nth (Z.to_nat t) (rl i n) 0).

Lemma wr_col_range j : 0 <= j < n -> forall p, ap j <= p < ap (j + 1) -> 0 <= p < nz.
Proof. intros Hj p Hp. pose proof (ap_nz j ltac:(lia)). pose proof (ap_nz (j + 1) ltac:(lia)). lia. Qed.

Lemma preprocess_ok Rp Ri W Flag : zlen Rp = n + 1 -> nz <= zlen Ri -> zlen W = n -> zlen Flag = n ->
  wp (AMD_preprocess n Ap Ai Rp Ri W Flag) (fun '(Rp', Ri', W', Flag') =>
    is_vec Rp' (n + 1) rp /\ zlen Ri' = zlen Ri /\ zlen W' = n /\ zlen Flag' = n /\
    forall i t, 0 <= i < n -> 0 <= t < zlen (rl i n) -> rd Ri' (rp i + t) = Ok (nth (Z.to_nat t) (rl i n) 0)).
Proof.
  intros LRp LRi LW LF. unfold AMD_preprocess.
  (* clear *)
  wb. apply (wp_for_le (fun k '(W, F) => is_pre W n k (fun _ => 0) /\ is_pre F n k (fun _ => EMPTY))); [lia| | |].
  { split; apply is_pre_0; auto. }
  { intros k [W1 F1] Hk [P1 P2]. wb. apply (is_pre_wr_next _ _ _ _ _ _ P1 Hk eq_refl). intros W2 P1'.
    wb. apply (is_pre_wr_next _ _ _ _ _ _ P2 Hk eq_refl). intros F2 P2'. wok. auto. }
  intros [W1 F1] [VW VF].
  (* count *)
  wb. apply (wp_for_le (fun j '(W, F) => is_vec W n (fun i => zlen (rl i j)) /\
        exists f, is_vec F n f /\ forall i, 0 <= i < n -> f i < j)); [lia| | |].
  { split; [exact VW|]. exists (fun _ => EMPTY). split; [exact VF|]. unfold EMPTY. intros; lia. }
  { clear W1 F1 VW VF. intros j [W1 F1] Hj [VW [f [VF Hf]]].
    wb. rewrite HAp by lia. wok. wb. rewrite HAp by lia. wok.
    apply (wp_for_le (fun p '(W, F) => is_vec W n (fun i => zlen (rlp i j p)) /\
        exists f, is_vec F n f /\ flag_ok f j p)); [apply Hmono; auto| | |].
    - split; [eapply is_vec_ext; [exact VW|]; intros; rewrite rlp_start; auto|]. exists f. split; auto. apply flag_start; auto.
    - clear W1 F1 VW VF f Hf. intros p [W1 F1] Hp [VW [f [VF Hf]]]. pose proof (wr_col_range j Hj p Hp) as Hpz.
      pose proof (Hrows p Hpz) as Hr. wb. rewrite HAi by auto. wok. wb. apply (is_vec_rd _ _ _ _ _ VF Hr).
      destruct (Z.eqb_spec (f (ai p)) j) as [E|E]; cbn [negb].
      + destruct (flag_same f j p ltac:(lia) Hr Hf E) as [F2 O2]. wok. split; [|exists f; auto].
        eapply is_vec_ext; [exact VW|]. intros i Hi. cbv beta. rewrite rlp_step by lia.
        destruct (Z.eqb_spec (ai p) i) as [<-|]; simpl; auto. rewrite O2. auto.
      + destruct (flag_new f j p ltac:(lia) Hr Hf E) as [F2 O2].
        wb. apply (is_vec_rd _ _ _ _ _ VW Hr). wb. apply (is_vec_wr _ _ _ _ _ _ VW Hr). intros W2 VW2.
        wb. apply (is_vec_wr _ _ _ _ _ _ VF Hr). intros F3 VF3. wok. split; [|eexists; eauto].
        eapply is_vec_ext; [exact VW2|]. intros i Hi. unfold fup. rewrite rlp_step by lia. rewrite (Z.eqb_sym i).
        destruct (Z.eqb_spec (ai p) i) as [<-|]; simpl; auto. rewrite O2. simpl. unfold rlp. rewrite O2, app_nil_r.
        rewrite zlen_app. reflexivity.
    - intros [W2 F2] [VW2 [f2 [VF2 Hf2]]]. split; [|exists f2; split; auto; apply flag_end; auto].
      eapply is_vec_ext; [exact VW2|]. intros i Hi. cbv beta. rewrite rl_step by lia. auto. }
  intros [W2 F2] [VW2 [f2 [VF2 _]]].
  (* pointers *)
  wb. apply wp_wr; [lia|]. intros Rp1 LRp1 RRp1.
  wb. apply (wp_for_le (fun i Rp => is_pre Rp (n + 1) (i + 1) rp)); [lia| | |].
  { split; [lia|]. intros i Hi. replace i with 0 by lia. rewrite RRp1. reflexivity. }
  { intros i Rp2 Hi HR. wb. eapply is_pre_rd; [exact HR|lia|]. wb. apply (is_vec_rd _ _ _ _ _ VW2 Hi).
    eapply is_pre_wr_next; [exact HR|lia|rewrite rp_step by lia; reflexivity|]. auto. }
  intros Rp2 HRp.
  wb. apply (wp_for_le (fun k '(W, F) => zlen W = n /\ zlen F = n /\ is_pre W n k rp /\ is_pre F n k (fun _ => EMPTY))); [lia| | |].
  { destruct VW2, VF2. repeat split; auto; intros; lia. }
  { intros k [W3 F3] Hk [L1 [L2 [P1 P2]]]. wb. eapply is_pre_rd; [exact HRp|lia|].
    wb. apply (is_pre_wr_next _ _ _ _ _ _ P1 Hk eq_refl). intros W4 P1'.
    wb. apply (is_pre_wr_next _ _ _ _ _ _ P2 Hk eq_refl). intros F4 P2'. wok.
    destruct P1' as [? ?], P2' as [? ?]. repeat split; auto. }
  intros [W3 F3] [_ [_ [VW3 VF3]]]. clear W1 F1 VW VF W2 F2 VW2 f2 VF2.
  (* store *)
  wb. apply (wp_for_le (fun j '(Ri', W, F) => zlen Ri' = zlen Ri /\ is_vec W n (fun i => rp i + zlen (rl i j)) /\
        inRange Ri' (fun i => rp i + zlen (rl i j)) /\
        exists f, is_vec F n f /\ forall i, 0 <= i < n -> f i < j)); [lia| | |].
  { split; auto. split; [eapply is_vec_ext; [exact VW3|]; intros i Hi; change (rp i = rp i + 0); lia|].
    split; [intros i t Hi Ht; change (zlen (rl i 0)) with 0 in Ht; lia|].
    exists (fun _ => EMPTY). split; [exact VF3|]. unfold EMPTY. intros; lia. }
  { clear W3 F3 VW3 VF3. intros j [[Ri1 W1] F1] Hj [LR [VW [HR [f [VF Hf]]]]].
    wb. rewrite HAp by lia. wok. wb. rewrite HAp by lia. wok.
    apply (wp_for_le (fun p '(Ri', W, F) => zlen Ri' = zlen Ri /\ is_vec W n (fun i => rp i + zlen (rlp i j p)) /\
        inRange Ri' (fun i => rp i + zlen (rlp i j p)) /\
        exists f, is_vec F n f /\ flag_ok f j p)); [apply Hmono; auto| | |].
    - split; auto. split; [eapply is_vec_ext; [exact VW|]; intros; cbv beta; rewrite rlp_start; auto|].
      split; [intros i t Hi Ht; rewrite rlp_start in Ht; apply HR; auto|].
      exists f. split; auto. apply flag_start; auto.
    - clear Ri1 LR HR W1 F1 VW VF f Hf. intros p [[Ri1 W1] F1] Hp [LR [VW [HR [f [VF Hf]]]]].
      pose proof (wr_col_range j Hj p Hp) as Hpz.
      pose proof (Hrows p Hpz) as Hr. wb. rewrite HAi by auto. wok. wb. apply (is_vec_rd _ _ _ _ _ VF Hr).
      destruct (Z.eqb_spec (f (ai p)) j) as [E|E]; cbn [negb].
      + destruct (flag_same f j p ltac:(lia) Hr Hf E) as [F2 O2]. wok.
        assert (X : forall i, 0 <= i < n -> rlp i j (p + 1) = rlp i j p).
        { intros i Hi. rewrite rlp_step by lia. destruct (Z.eqb_spec (ai p) i) as [<-|]; simpl; auto. rewrite O2. auto. }
        split; auto. split; [|split; [|exists f; auto]].
        * eapply is_vec_ext; [exact VW|]. intros i Hi. cbv beta. rewrite X; auto.
        * intros i t Hi Ht. rewrite X in Ht by auto. apply HR; auto.
      + destruct (flag_new f j p ltac:(lia) Hr Hf E) as [F2 O2].
        destruct (rl_nth (ai p) j p Hj Hp eq_refl) as [N1 N2].
        assert (E1 : rlp (ai p) j p = rl (ai p) j) by (unfold rlp; rewrite O2, app_nil_r; auto).
        assert (X : forall i, 0 <= i < n -> zlen (rlp i j (p + 1)) = zlen (rlp i j p) + if i =? ai p then 1 else 0).
        { intros i Hi. rewrite rlp_step by lia. rewrite (Z.eqb_sym i). destruct (Z.eqb_spec (ai p) i) as [<-|]; simpl; [|lia].
          rewrite O2. simpl. rewrite zlen_app, E1. reflexivity. }
        assert (Pf : forall i, 0 <= i < n -> zlen (rlp i j p) <= zlen (rl i n)).
        { intros i Hi. assert (Y : exists t, rl i n = rlp i j p ++ t).
          { destruct (rl_prefix i (j + 1) ltac:(lia)) as [t ->]. rewrite rl_step by lia. unfold rlp.
            destruct (occ i j p) eqn:O; [|exists ((if occ i j (ap (j + 1)) then [j] else []) ++ t); rewrite app_nil_r, app_assoc; reflexivity].
            replace (occ i j (ap (j + 1))) with true; [eexists; reflexivity|]. symmetry.
            apply existsb_exists in O. destruct O as [k [Ik Ek]]. apply existsb_exists. exists k. split; auto.
            apply in_zr in Ik. apply in_zr. lia. }
          destruct Y as [t ->]. rewrite zlen_app. pose proof (zlen_nonneg t). lia. }
        pose proof (zlen_nonneg (rl (ai p) j)) as Z0.
        assert (B0 : 0 <= rp (ai p)) by (change 0 with (rp 0); apply rp_mono; lia).
        assert (B1 : rp (ai p) + zlen (rl (ai p) j) < nz).
        { pose proof (rp_mono (ai p + 1) n ltac:(lia)). rewrite rp_step in H by lia. pose proof rp_total. lia. }
        wb. apply (is_vec_rd _ _ _ _ _ VW Hr). cbv beta. rewrite E1.
        wb. apply wp_wr; [lia|]. intros Ri2 LR2 RR2.
        wb. apply (is_vec_wr _ _ _ _ _ _ VW Hr). intros W2 VW2.
        wb. apply (is_vec_wr _ _ _ _ _ _ VF Hr). intros F3 VF3. wok. split; [lia|]. split; [|split; [|eexists; eauto]].
        * eapply is_vec_ext; [exact VW2|]. intros i Hi. unfold fup. rewrite X by auto.
          destruct (Z.eqb_spec i (ai p)) as [->|]; rewrite ?E1; lia.
        * intros i t Hi Ht. rewrite X in Ht by auto. rewrite RR2.
          destruct (Z.eqb_spec (rp i + t) (rp (ai p) + zlen (rl (ai p) j))) as [Eq|Ne].
          -- assert (i = ai p).
             { pose proof (Pf i Hi) as Q1. destruct (Z.lt_trichotomy i (ai p)) as [L|[?|L]]; auto; exfalso.
               - pose proof (rp_mono (i + 1) (ai p) ltac:(lia)). rewrite rp_step in H by lia.
                 destruct (Z.eqb_spec i (ai p)); lia.
               - pose proof (rp_mono (ai p + 1) i ltac:(lia)). rewrite rp_step in H by lia. lia. }
             subst i. replace t with (zlen (rl (ai p) j)) by lia. rewrite N2. auto.
          -- apply HR; auto. destruct (Z.eqb_spec i (ai p)) as [->|]; [|lia]. rewrite E1 in *. lia.
    - intros [[Ri2 W2] F2] [LR2 [VW2 [HR2 [f2 [VF2 Hf2]]]]]. split; auto. split; [|split; [|exists f2; split; auto; apply flag_end; auto]].
      + eapply is_vec_ext; [exact VW2|]. intros i Hi. cbv beta. rewrite rl_step by lia. auto.
      + intros i t Hi Ht. rewrite rl_step in Ht by lia. apply HR2; auto. }
  intros [[Ri2 W2] F2] [LR2 [VW2 [HR2 [f2 [VF2 _]]]]]. wok.
  split; [exact HRp|]. split; auto. destruct VW2, VF2. split; auto. split; auto.
  intros i t Hi Ht. apply HR2; auto. lia.
Qed.
End Preprocess.

(** Column j of the pattern has an entry in row i. *)
Definition has_entry (Ap Ai : arr Z) (i j : Z) : Prop :=
  exists a b k, rd Ap j = Ok a /\ rd Ap (j + 1) = Ok b /\ a <= k < b /\ rd Ai k = Ok i.

(** C38: for every well-formed pattern the result is a well-formed pattern with strictly increasing columns, holding
    exactly the transposed positions. *)
Theorem C38_preprocess n nz Ap Ai Rp Ri W Flag : 0 <= n -> csc_pattern n n Ap Ai nz ->
  zlen Rp = n + 1 -> nz <= zlen Ri -> zlen W = n -> zlen Flag = n ->
  exists Rp' Ri' W' Flag' nz', AMD_preprocess n Ap Ai Rp Ri W Flag = Ok (Rp', Ri', W', Flag') /\
    csc_pattern n n Rp' Ri' nz' /\ 0 <= nz' <= nz /\ sorted_columns n Rp' Ri' /\
    (forall i j, 0 <= i < n -> 0 <= j < n -> has_entry Rp' Ri' j i <-> has_entry Ap Ai i j) /\
    zlen W' = n /\ zlen Flag' = n.
Proof.
  intros Hn HP L1 L2 L3 L4. set (ap := get 0 Ap). set (ai := get 0 Ai).
  assert (HAp : forall j, 0 <= j <= n -> rd Ap j = Ok (ap j)) by (intros; eapply pattern_jc; eauto).
  assert (E0 : ap 0 = 0) by (apply get_rd, (cp_first _ _ _ _ _ HP)).
  assert (En : ap n = nz) by (apply get_rd, (cp_last _ _ _ _ _ HP)).
  assert (Em : forall j, 0 <= j < n -> ap j <= ap (j + 1)).
  { intros j Hj. destruct (cp_mono _ _ _ _ _ HP j Hj) as [a [b [X1 [X2 L]]]].
    unfold ap. rewrite (get_rd 0 _ _ _ X1), (get_rd 0 _ _ _ X2). auto. }
  assert (HAi : forall k, 0 <= k < nz -> rd Ai k = Ok (ai k) /\ 0 <= ai k < n).
  { intros k Hk. destruct (cp_rows _ _ _ _ _ HP k Hk) as [r [E L]]. unfold ai. rewrite (get_rd 0 _ _ _ E). auto. }
  pose proof (preprocess_ok n nz Ap Ai ap ai Hn E0 En Em HAp (fun k Hk => proj1 (HAi k Hk)) (fun k Hk => proj2 (HAi k Hk))
    Rp Ri W Flag L1 L2 L3 L4) as H.
  apply wp_exists in H. destruct H as [[[[Rp' Ri'] W'] Flag'] [E [VR [LR [LW [LF HR]]]]]].
  set (r := rp n ap ai) in *. set (l := fun i => rl ap ai i n).
  assert (Rst : forall i, 0 <= i -> r (i + 1) = r i + zlen (l i)) by (intros; apply rp_step; auto).
  assert (Rmo : forall a b, 0 <= a <= b -> r a <= r b) by (intros; apply rp_mono; auto).
  assert (Rrd : forall j, 0 <= j <= n -> rd Rp' j = Ok (r j)) by (intros; apply (proj2 VR); lia).
  assert (Cell : forall i k, 0 <= i < n -> r i <= k < r (i + 1) -> rd Ri' k = Ok (nth (Z.to_nat (k - r i)) (l i) 0) /\ In (nth (Z.to_nat (k - r i)) (l i) 0) (l i)).
  { intros i k Hi Hk. rewrite Rst in Hk by lia. split.
    - replace k with (r i + (k - r i)) at 1 by lia. apply HR; auto. fold (l i). lia.
    - apply nth_In. unfold zlen in Hk. lia. }
  assert (Lin : forall i c, In c (l i) <-> 0 <= c < n /\ exists k, ap c <= k < ap (c + 1) /\ ai k = i).
  { intros i c. unfold l, rl. rewrite filter_In, in_zr. unfold mem, occ. rewrite existsb_exists.
    split; intros [A [k [B C]]]; (split; [auto|exists k]); rewrite in_zr, Z.eqb_eq in *; auto. }
  exists Rp', Ri', W', Flag', (r n). split; auto. split; [|split; [|split; [|split]]]; auto.
  - constructor.
    + rewrite Rrd by lia. reflexivity.
    + intros j Hj. exists (r j), (r (j + 1)). split; [apply Rrd; lia|]. split; [apply Rrd; lia|]. apply Rmo; lia.
    + apply Rrd; lia.
    + intros k Hk. destruct (mono_find r n k Hn) as [i [Hi Hik]]; [change (r 0) with 0; lia|].
      destruct (Cell i k Hi Hik) as [C1 C2]. eexists. split; [exact C1|]. apply Lin in C2. tauto.
  - split; [change 0 with (r 0); apply Rmo; lia|]. apply (rp_total n nz ap ai); auto. intros k Hk. apply HAi; auto.
  - intros j a b k Hj Ea Eb K1 K2. rewrite Rrd in Ea, Eb by lia. injection Ea as <-. injection Eb as <-.
    destruct (Cell j k Hj ltac:(lia)) as [C1 _]. destruct (Cell j (k + 1) Hj ltac:(lia)) as [C2 _].
    eexists _, _. split; [exact C1|]. split; [exact C2|]. apply filter_zr_sorted; [lia|lia|].
    rewrite Rst in K2 by lia. fold (l j) in *. change (filter (mem ap ai j) (zr 0 n)) with (l j). unfold zlen in K2. lia.
  - intros i j Hi Hj. split.
    + intros [a [b [k [Ea [Eb [Hk Ek]]]]]]. rewrite Rrd in Ea, Eb by lia. injection Ea as <-. injection Eb as <-.
      destruct (Cell i k Hi Hk) as [C1 C2]. rewrite Ek in C1. injection C1 as C1. rewrite <- C1 in C2.
      apply Lin in C2. destruct C2 as [_ [q [Hq Eq]]]. exists (ap j), (ap (j + 1)), q.
      split; [apply HAp; lia|]. split; [apply HAp; lia|]. split; auto. rewrite <- Eq. apply HAi.
      pose proof (mono_steps ap n Em 0 j ltac:(lia) ltac:(lia) ltac:(lia)).
      pose proof (mono_steps ap n Em (j + 1) n ltac:(lia) ltac:(lia) ltac:(lia)). lia.
    + intros [a [b [k [Ea [Eb [Hk Ek]]]]]]. rewrite HAp in Ea, Eb by lia. injection Ea as <-. injection Eb as <-.
      assert (Hin : In j (l i)).
      { apply Lin. split; auto. exists k. split; auto.
        pose proof (mono_steps ap n Em 0 j ltac:(lia) ltac:(lia) ltac:(lia)).
        pose proof (mono_steps ap n Em (j + 1) n ltac:(lia) ltac:(lia) ltac:(lia)).
        destruct (HAi k ltac:(lia)) as [X _]. rewrite X in Ek. congruence. }
      destruct (In_nth _ _ 0 Hin) as [t [Ht Et]].
      assert (Hrange : r i <= r i + Z.of_nat t < r (i + 1)) by (rewrite Rst by lia; unfold zlen; lia).
      exists (r i), (r (i + 1)), (r i + Z.of_nat t). split; [apply Rrd; lia|]. split; [apply Rrd; lia|]. split; auto.
      destruct (Cell i (r i + Z.of_nat t) Hi ltac:(lia)) as [C1 _]. rewrite C1.
      replace (r i + Z.of_nat t - r i) with (Z.of_nat t) by lia. rewrite Nat2Z.id, Et. auto.
Qed.

(** A jumbled pattern with a duplicate, and what becomes of it. *)
Theorem C38_case :
  csc_pattern 3 3 (full [0; 3; 4; 6]) (full [2; 0; 2; 1; 2; 0]) 6 /\
  AMD_valid 3 3 (full [0; 3; 4; 6]) (full [2; 0; 2; 1; 2; 0]) = Ok AMD_OK_BUT_JUMBLED /\
  AMD_preprocess 3 (full [0; 3; 4; 6]) (full [2; 0; 2; 1; 2; 0]) (malloc Z 4) (malloc Z 6) (malloc Z 3) (malloc Z 3) =
    Ok (full [0; 2; 3; 5], full [0; 2; 1; 0; 2] ++ [None], full [2; 3; 5], full [2; 1; 2]).
Proof.
  split; [|split; vm_compute; reflexivity].
  constructor; try reflexivity.
  - intros j Hj. assert (E : j = 0 \/ j = 1 \/ j = 2) by lia.
    destruct E as [->|[->| ->]]; eexists _, _; (split; [reflexivity|split; [reflexivity|lia]]).
  - intros k Hk. assert (E : k = 0 \/ k = 1 \/ k = 2 \/ k = 3 \/ k = 4 \/ k = 5) by lia.
    destruct E as [->|[->|[->|[->|[->| ->]]]]]; eexists; (split; [reflexivity|lia]).
Qed.
