(** C69: the pattern of the factor is the set of fill paths of the matrix. *)
From Coq Require Import ZArith Reals List Lia Lra Bool.
From Verif Require Import Res Arith Lists MSparse Csc SemVec MLdl LdlSpec LdlSym LdlNum LdlSolve LdlR LdlFun
  Flat Spec SpecLink MSolver VecOps Iter Setup Session SafeInst Api P2_Kkt P3_Ldl P25_Cache P28_Left Demo KktProofs.
Import ListNotations.
Open Scope Z_scope.
Open Scope res_scope.

(** ** Statement *)

(** Steps [x] and [y] of the elimination are linked: the matrix has an entry there, in the triangle that is read. *)
Definition linked (n : Z) (Ap Ai : arr Z) (P : option (arr Z)) (x y : Z) : Prop :=
  0 <= x < n /\ 0 <= y < n /\ x <> y /\ occurs Ap Ai (elim_index P (Z.min x y)) (elim_index P (Z.max x y)).

(** A walk along links whose inner nodes are below [b]. *)
Inductive joined (E : Z -> Z -> Prop) (b : Z) : Z -> Z -> Prop :=
| j_link x y : E x y -> joined E b x y
| j_step x v y : E x v -> v < b -> joined E b v y -> joined E b x y.

(** A fill path: it joins [i] to a later step [k] through steps before [i]. *)
Definition fill_path (n : Z) (Ap Ai : arr Z) (P : option (arr Z)) (i k : Z) : Prop :=
  i < k /\ joined (linked n Ap Ai P) i i k.

(** ** Proof *)

Lemma joined_app E b x v y : joined E b x v -> v < b -> joined E b v y -> joined E b x y.
Proof. intros H Hv Hy. induction H as [x v H|x w v H Hw H1 IH]; [apply (j_step _ _ _ v)|apply (j_step _ _ _ w)]; auto. Qed.
Lemma joined_mono E b b' x y : b <= b' -> joined E b x y -> joined E b' x y.
Proof. intros Hb H. induction H as [x y H|x w y H Hw H1 IH]; [apply j_link|apply (j_step _ _ _ w)]; auto; lia. Qed.
Lemma joined_sub (E E' : Z -> Z -> Prop) b x y : (forall u v, E u v -> E' u v) -> joined E b x y -> joined E' b x y.
Proof. intros HE H. induction H as [x y H|x w y H Hw H1 IH]; [apply j_link|apply (j_step _ _ _ w)]; auto. Qed.
Lemma joined_sym (E : Z -> Z -> Prop) b x y : (forall u v, E u v -> E v u) -> joined E b x y -> joined E b y x.
Proof.
  intros HE H. induction H as [x y H|x w y H Hw H1 IH]; [apply j_link; auto|].
  apply joined_app with w; auto. apply j_link; auto.
Qed.
Lemma joined_split E b x y : joined E (b + 1) x y -> joined E b x y \/ (joined E b x b /\ joined E b b y).
Proof.
  intros H. induction H as [x y H|x v y H Hv H1 IH]; [left; apply j_link; auto|].
  destruct (Z.eq_dec v b) as [->|Hne].
  - right. split; [apply j_link; auto|]. destruct IH as [IH|[_ IH]]; auto.
  - destruct IH as [IH|[IH1 IH2]]; [left|right; split; auto]; apply (j_step _ _ _ v); auto; lia.
Qed.

Lemma path_origin f par st j x : In x (path f par st j) -> x = j \/ exists c, In c (path f par st j) /\ par c = x.
Proof.
  revert st j. induction f as [|f IH]; intros st j H; simpl in H; [tauto|]. simpl.
  destruct (inb j st) eqn:E; [destruct H|]. destruct H as [H|H]; [auto|]. right.
  destruct (IH _ _ H) as [->|[c [H1 H2]]]; [exists j|exists c]; simpl; auto.
Qed.
Lemma fold_origin n par k rows acc x : In x (fold_left (pstep n par k) rows acc) ->
  In x acc \/ (In x rows /\ x < k) \/ exists c, In c (fold_left (pstep n par k) rows acc) /\ par c = x.
Proof.
  revert acc. induction rows as [|j rows IH]; intros acc H; simpl in *; [auto|].
  destruct (IH _ H) as [H1|[[H1 H2]|H1]]; [|right; left; auto|auto].
  unfold pstep in H1. destruct (Z.ltb_spec j k) as [Hj|Hj]; [|auto].
  apply in_app_or in H1. destruct H1 as [H1|H1]; [|auto].
  destruct (path_origin _ _ _ _ _ H1) as [->|[c [H2 H3]]]; [right; left; auto|].
  right. right. exists c. split; auto. apply fold_pstep_incl. unfold pstep. destruct (Z.ltb_spec j k); [|lia].
  apply in_or_app. auto.
Qed.
Lemma pat_origin n par rows k x : In x (patlist n par rows k) ->
  (In x rows /\ x < k) \/ exists c, In c (patlist n par rows k) /\ par c = x.
Proof. intros H. destruct (fold_origin _ _ _ _ _ _ H) as [[]|H1]; exact H1. Qed.

Section Forest.
Variables (n : Z) (par : Z -> Z) (rows : Z -> list Z).
Hypothesis HF : forest n par rows.
Hypothesis Hrows : forall k i, 0 <= k < n -> In i (rows k) -> 0 <= i < n.
Definition redge (x y : Z) : Prop := 0 <= x < n /\ 0 <= y < n /\ x <> y /\ In (Z.min x y) (rows (Z.max x y)).
Notation pl k := (patlist n par (rows k) k).

Lemma redge_sym x y : redge x y -> redge y x.
Proof. unfold redge. rewrite (Z.min_comm y x), (Z.max_comm y x). intuition. Qed.

Lemma pat_path k : 0 <= k < n -> forall i, In i (pl k) -> joined redge i i k.
Proof.
  intros Hk0. assert (H0 : 0 <= k) by lia. revert Hk0. pattern k. apply Zlt_0_ind; [|exact H0]. clear k H0.
  intros k IHk _ Hk i Hi.
  pose proof (fo_topo _ _ _ HF k Hk) as HT. assert (Hi0 : 0 <= i) by (apply HT in Hi; lia).
  revert Hi. pattern i. apply Zlt_0_ind; [|exact Hi0]. clear i Hi0. intros i IHi _ Hi.
  pose proof (proj1 (proj2 HT) i Hi) as [Bi _].
  destruct (pat_origin _ _ _ _ _ Hi) as [[H1 H2]|[c [H1 H2]]].
  - apply j_link. unfold redge. rewrite Z.min_l, Z.max_r by lia. repeat split; auto; lia.
  - pose proof (proj1 (proj2 HT) c H1) as [Bc Hc]. rewrite H2 in Hc.
    assert (Hci : In c (pl i)) by (apply (fo_exact _ _ _ HF); auto; lia).
    apply joined_app with c; [|lia|].
    + apply joined_mono with c; [lia|]. apply joined_sym; [apply redge_sym|]. apply IHk; auto; lia.
    + apply joined_mono with c; [lia|]. apply IHi; auto; lia.
Qed.

Lemma path_pat b : 0 <= b -> forall x y, b <= x -> 0 <= x < y -> y < n -> joined redge b x y -> In x (pl y).
Proof.
  intros Hb. pattern b. apply natlike_ind; [| |exact Hb]; clear b Hb.
  - intros x y _ Hx Hy H. assert (E : redge x y).
    { inversion H as [? ? H1|? v ? H1 Hv _]; subst; auto. destruct H1 as [_ [H1 _]]. lia. }
    destruct E as [_ [_ [_ E]]]. rewrite Z.min_l, Z.max_r in E by lia.
    apply patlist_covers; auto; try lia; [intros j Hj; apply (Hrows y); auto; lia|apply (fo_topo _ _ _ HF); lia].
  - intros b Hb IH x y Hx Hxy Hy H. destruct (joined_split _ _ _ _ H) as [H1|[H1 H2]]; [apply IH; auto; lia|].
    assert (P1 : In b (pl x)) by (apply IH; auto; try lia; apply joined_sym; auto; apply redge_sym).
    assert (P2 : In b (pl y)) by (apply IH; auto; lia).
    apply in_split in P2. destruct P2 as [l1 [l2 E]]. rewrite E. apply in_or_app. right. right.
    apply (topo_between par y (pl y) x (pl x) l1 b l2); auto; try lia; apply (fo_topo _ _ _ HF); lia.
Qed.

Lemma pat_iff i k : 0 <= i < n -> 0 <= k < n -> (In i (pl k) <-> i < k /\ joined redge i i k).
Proof.
  intros Hi Hk. split.
  - intros H. pose proof (fo_topo _ _ _ HF k Hk) as HT. split; [apply HT in H; lia|]. apply pat_path; auto.
  - intros [H1 H2]. apply (path_pat i); auto; lia.
Qed.
End Forest.

Lemma occurs_col {F} Jc Ir (Pr : arr F) n col i j : Csc Jc Ir Pr n col -> 0 <= j < n ->
  (occurs Jc Ir i j <-> exists v, In (i, v) (col j)).
Proof.
  intros C Hj. split.
  - intros [a [b [k [E1 [E2 [Hk E3]]]]]].
    rewrite (csc_jc _ _ _ _ _ C j ltac:(lia)) in E1. rewrite (csc_jc _ _ _ _ _ C (j + 1) ltac:(lia)) in E2.
    injection E1 as <-. injection E2 as <-. rewrite start_succ in Hk by lia.
    destruct (nth_error (col j) (Z.to_nat (k - start col j))) as [[r v]|] eqn:E; [|apply nth_error_None in E; unfold zlen in Hk; lia].
    pose proof (csc_ir _ _ _ _ _ C j _ r v Hj E) as R. rewrite Z2Nat.id in R by lia.
    replace (start col j + (k - start col j)) with k in R by lia. rewrite E3 in R. injection R as ->.
    exists v. eapply nth_error_In; eauto.
  - intros [v H]. apply (Csc_stored _ _ _ _ _ i j v C Hj) in H. destruct H as [a [b [k [H1 [H2 [H3 [H4 _]]]]]]].
    exists a, b, k. auto.
Qed.

(** The number of fill paths from step [i]. *)
Definition fill_count (n : Z) (Ap Ai : arr Z) (P : option (arr Z)) (i c : Z) : Prop :=
  exists l, NoDup l /\ zlen l = c /\ forall k, In k l <-> k < n /\ fill_path n Ap Ai P i k.

(** The first step after [i] that a fill path reaches, -1 if there is none. *)
Definition first_fill (n : Z) (Ap Ai : arr Z) (P : option (arr Z)) (i p : Z) : Prop :=
  (p = -1 /\ forall k, k < n -> ~ fill_path n Ap Ai P i k) \/
  (i < p < n /\ fill_path n Ap Ai P i p /\ forall k, k < n -> fill_path n Ap Ai P i k -> p <= k).

Section Link.
Variable A : Arith.
Variables (n : Z) (Ap Ai : arr Z) (Ax : arr (car A)) (col : cols (car A)) (P : option (arr Z)) (Pf Qf par : Z -> Z).
Hypothesis C : Csc Ap Ai Ax n col.
Hypothesis HR : rows_in n n col.
Hypothesis HP : isperm n Pf Qf.
Hypothesis HPe : forall k, 0 <= k < n -> elim_index P k = Pf k.
Hypothesis HF : forest n par (brows Pf Qf col).
Notation rows := (brows Pf Qf col).
Notation pl k := (patlist n par (rows k) k).

Lemma brows_in k i : 0 <= k < n -> In i (rows k) -> 0 <= i < n.
Proof.
  intros Hk H. unfold brows in H. apply in_map_iff in H. destruct H as [[r v] [<- H]]. cbn [fst].
  apply (qf_range _ _ _ HP). apply (HR _ _ _ (pf_range _ _ _ HP k Hk) H).
Qed.
Lemma brows_iff k i : 0 <= k < n -> 0 <= i < n -> (In i (rows k) <-> occurs Ap Ai (Pf i) (Pf k)).
Proof.
  intros Hk Hi. pose proof (pf_range _ _ _ HP k Hk) as Hpk. rewrite (occurs_col _ _ _ _ _ _ _ C Hpk).
  unfold brows. rewrite in_map_iff. split.
  - intros [[r v] [E H]]. cbn [fst] in E. exists v. rewrite <- E, (pf_qf _ _ _ HP); auto. apply (HR _ _ _ Hpk H).
  - intros [v H]. exists (Pf i, v). split; auto. cbn [fst]. apply (qf_pf _ _ _ HP); auto.
Qed.
Lemma link_iff x y : redge n rows x y <-> linked n Ap Ai P x y.
Proof.
  unfold redge, linked. split; intros [H1 [H2 [H3 H4]]]; repeat split; try tauto; revert H4;
    rewrite brows_iff, !HPe by lia; auto.
Qed.
Lemma fill_iff i k : 0 <= i < n -> 0 <= k < n -> (In i (pl k) <-> fill_path n Ap Ai P i k).
Proof.
  intros Hi Hk. rewrite (pat_iff n par rows HF brows_in i k Hi Hk). unfold fill_path.
  split; intros [H1 H2]; (split; [exact H1|]); eapply joined_sub; try exact H2; intros u v; apply link_iff.
Qed.
Lemma fill_range i k : 0 <= i < n -> fill_path n Ap Ai P i k -> 0 <= k.
Proof. intros Hi [H _]. lia. Qed.
Lemma count_ok i : 0 <= i < n -> fill_count n Ap Ai P i (lnzf A n col Pf Qf par i).
Proof.
  intros Hi. exists (lrows A n col Pf Qf par n i). split; [|split].
  - unfold lrows. apply NoDup_filter. apply NoDup_zr.
  - apply zlen_lrows.
  - intros k. rewrite in_lrows. split.
    + intros [H1 H2]. split; [lia|]. apply fill_iff; auto.
    + intros [H1 H2]. pose proof (fill_range i k Hi H2). split; [lia|]. apply fill_iff; auto; lia.
Qed.
Lemma first_ok i : 0 <= i < n -> first_fill n Ap Ai P i (par i).
Proof.
  intros Hi. assert (G : forall k, k < n -> fill_path n Ap Ai P i k -> par i <> -1 /\ par i <= k).
  { intros k Hk H. pose proof (fill_range i k Hi H). apply fill_iff in H; try lia.
    pose proof (fo_topo _ _ _ HF k ltac:(lia)) as HT. split; [eapply topo_not_m1; eauto|].
    destruct (topo_par _ _ _ _ HT H) as [->|H1]; [lia|]. apply HT in H1. lia. }
  destruct (fo_par _ _ _ HF i Hi) as [E|E].
  - left. split; auto. intros k Hk H. apply (proj1 (G k Hk H)). exact E.
  - right. split; auto. split; [|intros k Hk H; apply (G k Hk H)].
    apply fill_iff; auto; [lia|]. apply (fo_exact _ _ _ HF); auto; lia.
Qed.
Lemma storage_ok : 0 <= n -> 2 * Lpf A n col Pf Qf par n <= n * (n - 1).
Proof.
  intros Hn. assert (G : forall j, 0 <= j -> j <= n -> 2 * Lpf A n col Pf Qf par j <= j * (2 * n - j - 1)).
  2:{ specialize (G n Hn ltac:(lia)). nia. }
  apply (natlike_ind (fun j => j <= n -> 2 * Lpf A n col Pf Qf par j <= j * (2 * n - j - 1))).
  - intros _. unfold Lpf. rewrite zr_nil by lia. cbn [sumz]. lia.
  - intros j Hj IH Hjn. rewrite <- Z.add_1_r, Lpf_succ by lia. specialize (IH ltac:(lia)).
    destruct (count_ok j ltac:(lia)) as [l [ND [EL HL]]].
    assert (HB : zlen l <= n - 1 - j).
    { assert (HI : incl l (zr (j + 1) n)).
      { intros k Hk. apply HL in Hk. destruct Hk as [H1 [H2 _]]. apply in_zr. lia. }
      pose proof (NoDup_incl_length ND HI) as HLen. apply Nat2Z.inj_le in HLen. fold (zlen l) in HLen. fold (zlen (zr (j + 1) n)) in HLen.
      rewrite zlen_zr in HLen. lia. }
    nia.
Qed.
End Link.

(** ** Theorems *)

Lemma elim_vec n p Pf : vec p n Pf -> forall k, 0 <= k < n -> elim_index (Some p) k = Pf k.
Proof. intros H k Hk. cbn [elim_index]. apply get_rd. apply H; auto. Qed.

(** LDL_symbolic: the count of column [i] is the number of fill paths from [i], the parent the first step one reaches,
    and the reserved storage never exceeds that of a dense factor. *)
Theorem C69_symbolic n Ap Ai nz P Pinv Lp Parent Lnz Flag : 0 <= n -> csc_pattern n n Ap Ai nz -> usable_order n P Pinv ->
  zlen Lp = n + 1 -> zlen Parent = n -> zlen Lnz = n -> zlen Flag = n ->
  exists Lp' Parent' Lnz' Flag' Pinv', LDL_symbolic n Ap Ai Lp Parent Lnz Flag P Pinv = Ok (Lp', Parent', Lnz', Flag', Pinv') /\
  (forall i, 0 <= i < n -> exists c p, rd Lnz' i = Ok c /\ rd Parent' i = Ok p /\
     fill_count n Ap Ai P i c /\ first_fill n Ap Ai P i p /\
     exists a, rd Lp' i = Ok a /\ rd Lp' (i + 1) = Ok (a + c)) /\
  (exists lnz, rd Lp' n = Ok lnz /\ 2 * lnz <= n * (n - 1)).
Proof.
  intros Hn Hpat Hord HLp HPa HLn HFl.
  set (Ax := map (fun _ : Z => Some 0%R) (zr 0 nz)).
  assert (HAx : filled Ax nz).
  { intros i Hi. exists 0%R. unfold rd, Ax. destruct (Z.ltb_spec i 0); [lia|]. rewrite nth_error_map.
    destruct (nth_error (zr 0 nz) (Z.to_nat i)) eqn:E; [reflexivity|]. apply nth_error_None in E.
    pose proof (zlen_zr 0 nz). unfold zlen in *. lia. }
  destruct (csc_link (f0 RA) n n Ap Ai Ax nz Hn (mkCscArrays _ _ _ _ _ _ _ Hpat HAx)) as [C [R _]].
  destruct (order_link n P Pinv Hn Hord) as [Qf [HP [Hg HPP]]].
  pose proof (LDL_symbolic_ok n Ap Ai Ax _ _ Qf Lp Parent Lnz Flag P Pinv Hn C R HP HLp HPa HLn HFl HPP) as H.
  apply wp_exists in H. destruct H as [[[[[Lp' Pa'] Ln'] Fl'] Pi'] [E [par [HF [Hout [H1 [H2 [H3 [H4 [H5 H6]]]]]]]]]].
  exists Lp', Pa', Ln', Fl', Pi'. split; [exact E|].
  set (col := column (f0 RA) Ap Ai Ax) in *. set (Pf := elim_index P) in *.
  assert (HPe : forall k, 0 <= k < n -> elim_index P k = Pf k) by reflexivity. split.
  - intros i Hi. exists (lcnt n par (brows Pf Qf col) n i), (par i). split; [apply H2; auto|]. split; [apply H1; auto|].
    split; [apply (count_ok RA n Ap Ai Ax col P Pf Qf par C R HP HPe HF i Hi)|].
    split; [apply (first_ok RA n Ap Ai Ax col P Pf Qf par C R HP HPe HF i Hi)|].
    eexists. split; [apply H3; lia|]. etransitivity; [apply H3; lia|]. f_equal. rewrite zr_snoc, sumz_app by lia. simpl. lia.
  - eexists. split; [apply H3; lia|]. exact (storage_ok RA n Ap Ai Ax col P Pf Qf par C R HP HPe HF Hn).
Qed.
Print Assumptions C69_symbolic.

(** LDL_numeric stores row [k] in column [i] exactly if there is a fill path from [i] to [k]. *)
Theorem C69_numeric A n Ap Ai nz (Ax : arr (car A)) P Pinv Lp Parent Lnz Flag Lp' Parent' Lnz' Flag' Pinv' w r w' :
  0 <= n -> csc_arrays n n Ap Ai Ax nz -> usable_order n P Pinv ->
  zlen Lp = n + 1 -> zlen Parent = n -> zlen Lnz = n -> zlen Flag = n -> div_ok A ->
  LDL_symbolic n Ap Ai Lp Parent Lnz Flag P Pinv = Ok (Lp', Parent', Lnz', Flag', Pinv') ->
  work_sizes A n (get 0 Lp' n) w -> LDL_numeric A n Ap Ai Ax Lp' Parent' w P Pinv' = Ok (r, w') ->
  forall i k, 0 <= i < n -> (occurs Lp' (nLi A w') k i <-> k < n /\ fill_path n Ap Ai P i k).
Proof.
  intros Hn [Hpat HAx] Hord HLp HPa HLn HFl Hdiv Hsym Hw Hnum i k Hi.
  destruct (num_facts n Ap Ai nz P Pinv Lp Parent Lnz Flag Hn Hpat Hord HLp HPa HLn HFl A Ax HAx Lp' Parent' Lnz' Flag' Pinv' Hsym Hdiv)
    as [Qf [par [C [R [HP [HF [H2 [_ [_ HW]]]]]]]]]. destruct (HW w Hw) as [w2 [E2 [HC _]]].
  rewrite Hnum in E2. injection E2 as _ <-. rewrite (occurs_col _ _ _ _ _ _ _ HC Hi).
  unfold lcF, lcol. split.
  - intros [v H]. apply in_map_iff in H. destruct H as [k' [E H]]. injection E as -> _. apply in_lrows in H. destruct H as [H1 H3].
    split; [lia|]. apply (fill_iff A n Ap Ai Ax _ P _ Qf par C R HP (fun k _ => eq_refl) HF); auto.
  - intros [H1 H3]. eexists. apply in_map_iff. exists k. split; [reflexivity|]. apply in_lrows.
    assert (0 <= k) by (destruct H3; lia). split; [lia|].
    apply (fill_iff A n Ap Ai Ax _ P _ Qf par C R HP (fun k _ => eq_refl) HF); auto.
Qed.
Print Assumptions C69_numeric.

(** Two counts of fill paths compare as the patterns do. *)
Lemma count_mono n Ap Ai P Ap' Ai' P' i c c' :
  (forall x y, linked n Ap Ai P x y -> linked n Ap' Ai' P' x y) ->
  fill_count n Ap Ai P i c -> fill_count n Ap' Ai' P' i c' -> c <= c'.
Proof.
  intros HE [l [N1 [E1 H1]]] [l' [N2 [E2 H2]]]. subst c c'. apply Nat2Z.inj_le. apply NoDup_incl_length; auto.
  intros k Hk. apply H1 in Hk. destruct Hk as [Hk [Hi HJ]]. apply H2. split; auto. split; auto. eapply joined_sub; eauto.
Qed.

(** More entries in the matrix never make a column of the factor shorter. *)
Theorem C69_monotone n Ap Ai nz P Pinv Lp Parent Lnz Flag Ap2 Ai2 nz2 P2 Pinv2 Lp2 Parent2 Lnz2 Flag2
    a1 a2 a3 a4 a5 b1 b2 b3 b4 b5 : 0 <= n ->
  csc_pattern n n Ap Ai nz -> usable_order n P Pinv -> zlen Lp = n + 1 -> zlen Parent = n -> zlen Lnz = n -> zlen Flag = n ->
  csc_pattern n n Ap2 Ai2 nz2 -> usable_order n P2 Pinv2 -> zlen Lp2 = n + 1 -> zlen Parent2 = n -> zlen Lnz2 = n -> zlen Flag2 = n ->
  LDL_symbolic n Ap Ai Lp Parent Lnz Flag P Pinv = Ok (a1, a2, a3, a4, a5) ->
  LDL_symbolic n Ap2 Ai2 Lp2 Parent2 Lnz2 Flag2 P2 Pinv2 = Ok (b1, b2, b3, b4, b5) ->
  (forall x y, linked n Ap Ai P x y -> linked n Ap2 Ai2 P2 x y) ->
  forall i, 0 <= i < n -> exists c c', rd a3 i = Ok c /\ rd b3 i = Ok c' /\ c <= c'.
Proof.
  intros Hn H1 H2 H3 H4 H5 H6 G1 G2 G3 G4 G5 G6 E1 E2 HE i Hi.
  destruct (C69_symbolic n Ap Ai nz P Pinv Lp Parent Lnz Flag Hn H1 H2 H3 H4 H5 H6) as [x1 [x2 [x3 [x4 [x5 [EE [HH _]]]]]]].
  rewrite E1 in EE. injection EE as <- <- <- <- <-. destruct (HH i Hi) as [c [p [R1 [_ [K1 _]]]]].
  destruct (C69_symbolic n Ap2 Ai2 nz2 P2 Pinv2 Lp2 Parent2 Lnz2 Flag2 Hn G1 G2 G3 G4 G5 G6) as [x1 [x2 [x3 [x4 [x5 [EE [HH2 _]]]]]]].
  rewrite E2 in EE. injection EE as <- <- <- <- <-. destruct (HH2 i Hi) as [c2 [p2 [R2 [_ [K2 _]]]]].
  exists c, c2. split; auto. split; auto. eapply count_mono; eauto.
Qed.
Print Assumptions C69_monotone.

(** In an order where the later neighbours of each step are linked to each other nothing fills in. *)
Theorem C69_no_fill n Ap Ai P :
  (forall b x y, linked n Ap Ai P b x -> linked n Ap Ai P b y -> b < x -> b < y -> x <> y -> linked n Ap Ai P x y) ->
  forall i k, 0 <= i < k -> (fill_path n Ap Ai P i k <-> linked n Ap Ai P i k).
Proof.
  intros HE.
  assert (HS : forall u v, linked n Ap Ai P u v -> linked n Ap Ai P v u).
  { intros u v. unfold linked. rewrite (Z.min_comm v u), (Z.max_comm v u). intuition. }
  assert (G : forall b, 0 <= b -> forall x y, b <= x -> b <= y -> x <> y -> joined (linked n Ap Ai P) b x y -> linked n Ap Ai P x y).
  { apply (natlike_ind (fun b => forall x y, b <= x -> b <= y -> x <> y -> joined (linked n Ap Ai P) b x y -> linked n Ap Ai P x y)).
    - intros x y _ _ _ H. inversion H as [? ? H1|? v ? H1 Hv _]; subst; auto. destruct H1 as [_ [H1 _]]. lia.
    - intros b Hb IH x y Hx Hy Hne H. rewrite <- Z.add_1_r in *. destruct (joined_split _ _ _ _ H) as [H1|[H1 H2]]; [apply IH; auto; lia|].
      apply (HE b); try lia; [apply HS|]; apply IH; auto; lia. }
  intros i k Hik. split.
  - intros [_ H]. apply (G i); auto; lia.
  - intros H. split; [lia|]. apply j_link. exact H.
Qed.
Print Assumptions C69_no_fill.

(** After setup and any calls: the factor held by the handle has the fill paths of the handle's KKT matrix in the handle's
    elimination order, and its storage is at most N(N-1)/2. *)
Theorem C69_handle A ps amd (u : user (car A)) l codes q : Safe A ps -> valid_user amd u -> quiet_calls A u l ->
  session A amd u l = Ok (codes, q) ->
  let k := q_kkt q in let K := k_mat k in let N := u_N u in
  (forall i, 0 <= i < N -> exists a c p, rd (k_Lp k) i = Ok a /\ rd (k_Lp k) (i + 1) = Ok (a + c) /\ rd (k_Parent k) i = Ok p /\
     fill_count N (jc K) (ir K) (Some (k_P k)) i c /\ first_fill N (jc K) (ir K) (Some (k_P k)) i p) /\
  (exists lnz, rd (k_Lp k) N = Ok lnz /\ 2 * lnz <= N * (N - 1)).
Proof.
  intros SF HV Hq HS k K N.
  destruct (session_ok A amd u l ps SF HV Hq) as [q0' [q' [B [r [E0 [HSt [E1 [HA [HI _]]]]]]]]].
  rewrite HS in E1. injection E1 as E1 E2. subst q'. clear E1.
  pose proof (sd_n _ _ _ _ _ HSt) as [En [Em [Ep _]]]. destruct HA as [HB HP _ _].
  destruct (b_K _ _ _ HB) as [cap [w [HK _]]].
  pose proof (b_sym _ _ _ HB) as HSy. pose proof (b_forest _ _ _ HB) as HF.
  assert (EN : N = pN B) by (unfold N, u_N, pN; lia). rewrite EN. clear EN.
  assert (Erows : forall j, brows (pPf B) (pQf B) (ovl (K0 A B) w) j = brows (pPf B) (pQf B) (K0 A B) j).
  { intros j. unfold brows. rewrite <- !(map_map fst (pQf B)). f_equal. apply ovl_l_fst. }
  assert (HF' : forest (pN B) (ppar B) (brows (pPf B) (pQf B) (ovl (K0 A B) w))) by (eapply P25_Cache.forest_same; eauto).
  pose proof (kr_csc _ _ _ _ HK) as C. pose proof (kr_row _ _ _ _ HK) as HR. pose proof (kr_N _ _ _ _ HK) as HN.
  pose proof (sk_perm _ _ _ _ _ _ _ HSy) as HPm.
  pose proof (elim_vec _ _ _ (sk_P _ _ _ _ _ _ _ HSy)) as HPe.
  pose proof (sk_Lp _ _ _ _ _ _ _ HSy) as HL. pose proof (sk_Parent _ _ _ _ _ _ _ HSy) as HPa.
  assert (EL : forall j, Lpf A (pN B) (ovl (K0 A B) w) (pPf B) (pQf B) (ppar B) j = Lpf A (pN B) (K0 A B) (pPf B) (pQf B) (ppar B) j)
    by (intros j; apply Lpf_same; exact Erows).
  split.
  - intros i Hi. exists (Lpf A (pN B) (ovl (K0 A B) w) (pPf B) (pQf B) (ppar B) i),
      (lnzf A (pN B) (ovl (K0 A B) w) (pPf B) (pQf B) (ppar B) i), (ppar B i).
    split; [rewrite EL; apply HL; lia|].
    split; [rewrite <- Lpf_succ by lia; rewrite EL; apply HL; lia|].
    split; [apply HPa; lia|].
    split; [apply (count_ok A _ _ _ _ _ _ _ _ _ C HR HPm HPe HF' i Hi)|apply (first_ok A _ _ _ _ _ _ _ _ _ C HR HPm HPe HF' i Hi)].
  - exists (Lpf A (pN B) (ovl (K0 A B) w) (pPf B) (pQf B) (ppar B) (pN B)). split; [rewrite EL; apply HL; lia|].
    apply (storage_ok A _ _ _ _ _ _ _ _ _ C HR HPm HPe HF' HN).
Qed.
Print Assumptions C69_handle.

(** ** Case: step 0 is linked to 1 and to 2, which are not linked to each other; eliminating 0 first fills (2, 1), and the dense
    bound 3 is met. Eliminating it last leaves 2 entries. *)
Definition star_p : arr Z := zs [0; 3; 5; 7].
Definition star_i : arr Z := zs [0; 1; 2; 0; 1; 0; 2].

Lemma star_pattern : csc_pattern 3 3 star_p star_i 7.
Proof.
  constructor; [reflexivity| |reflexivity|].
  - intros j Hj; enum j; do 2 eexists; (split; [reflexivity|split; [reflexivity|lia]]).
  - intros k Hk; enum k; eexists; (split; [reflexivity|lia]).
Qed.

Lemma star_12 : ~ linked 3 star_p star_i None 1 2.
Proof.
  intros [_ [_ [_ [a [b [k [Ea [Eb [Hk Ei]]]]]]]]]. vm_compute in Ea, Eb. injection Ea as <-. injection Eb as <-.
  assert (H : 0 <= k < 7) by lia. enum k; try lia; discriminate Ei.
Qed.
Lemma star_01 : linked 3 star_p star_i None 0 1.
Proof. split; [lia|split; [lia|split; [lia|]]]. exists 3, 5, 3. repeat split; lia. Qed.
Lemma star_02 : linked 3 star_p star_i None 0 2.
Proof. split; [lia|split; [lia|split; [lia|]]]. exists 5, 7, 5. repeat split; lia. Qed.
Lemma star_10 : linked 3 star_p star_i None 1 0.
Proof. split; [lia|split; [lia|split; [lia|]]]. exists 3, 5, 3. repeat split; lia. Qed.

Lemma C69_case :
  csc_pattern 3 3 star_p star_i 7 /\ fill_path 3 star_p star_i None 1 2 /\ ~ linked 3 star_p star_i None 1 2 /\
  LDL_symbolic 3 star_p star_i (malloc _ 4) (malloc _ 3) (malloc _ 3) (malloc _ 3) None None =
    Ok (zs [0; 2; 3; 3], zs [1; 2; -1], zs [2; 1; 0], zs [2; 2; 2], None) /\
  LDL_symbolic 3 star_p star_i (malloc _ 4) (malloc _ 3) (malloc _ 3) (malloc _ 3) (Some (zs [1; 2; 0])) (Some (malloc _ 3)) =
    Ok (zs [0; 1; 2; 2], zs [2; 2; -1], zs [1; 1; 0], zs [2; 2; 2], Some (zs [2; 0; 1])).
Proof.
  split; [apply star_pattern|]. split; [|split; [apply star_12|split; reflexivity]].
  split; [lia|]. apply (j_step _ _ _ 0); [apply star_10|lia|]. apply j_link. apply star_02.
Qed.
