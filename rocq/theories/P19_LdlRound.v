(** Property C59: rounding errors of the double-precision factorisation and solve. *)
From Coq Require Import ZArith Reals List Lia Lra Bool Permutation.
From Flocq Require Import Core BinarySingleNaN.
From Verif Require Import Res Partial Arith Lists MSparse MLdl Csc SemVec LdlSpec LdlSym LdlNum LdlSolve LdlR LdlFun
  QpSpec Round RoundLdl Spec SpecLink Api Demo P3_Ldl.
Import ListNotations.
Open Scope Z_scope.
Open Scope res_scope.

(** ** Specification *)

(** The real numbers held by an array of doubles. *)
Definition reals (a : arr b64) : arr R := map (@option_map b64 R (fun v => B2R v)) a.

(** No column stores the same row twice. *)
Definition distinct_rows (n : Z) (Ap Ai : arr Z) : Prop := forall j k1 k2, 0 <= j < n ->
  get 0 Ap j <= k1 -> k1 < k2 -> k2 < get 0 Ap (j + 1) -> get 0 Ai k1 <> get 0 Ai k2.

(** Every stored value, or each of the first [n] values, is finite. *)
Definition finite_entries (n : Z) (Ap Ai : arr Z) (Ax : arr b64) : Prop :=
  forall i j v, 0 <= j < n -> stored Ap Ai Ax i j v -> is_finite v = true.
Definition finite_first (n : Z) (a : arr b64) : Prop := forall i v, 0 <= i < n -> rd a i = Ok v -> is_finite v = true.

Section Sizes.
Variables (n : Z) (L : Z -> Z -> R) (D : Z -> R).
(** (|L| |D| |L|')_ik and the row sums (|L| |D| e)_i *)
Definition ldl_size (i k : Z) : R := sumr (fun j => Rabs (L i j) * Rabs (D j) * Rabs (L k j))%R (zr 0 n).
Definition ld_size (i : Z) : R := sumr (fun j => Rabs (L i j) * Rabs (D j))%R (zr 0 n).
End Sizes.

(** ** Proof *)

Lemma get_reals a i : get 0%R (reals a) i = B2R (get (f0 FA) a i).
Proof.
  unfold get, reals, rd. destruct (i <? 0); [reflexivity|]. rewrite nth_error_map. unfold arr in a. cbn [car FA].
  change (@nth_error (option (car FA)) a (Z.to_nat i)) with (@nth_error (option b64) a (Z.to_nat i)).
  destruct (nth_error a (Z.to_nat i)) as [[v|]|]; reflexivity.
Qed.

Lemma column_reals Ap Ai Ax j : column 0%R Ap Ai (reals Ax) j = map (fun e => (fst e, B2R (snd e))) (column (f0 FA) Ap Ai Ax j).
Proof. unfold column. rewrite map_map. apply map_ext. intros k. rewrite get_reals. reflexivity. Qed.

Lemma mat_entB Ap Ai Ax i j : mat_entry Ap Ai (reals Ax) i j = entB (column (f0 FA) Ap Ai Ax j) i.
Proof. unfold mat_entry, entB, ent. rewrite column_reals. reflexivity. Qed.

Lemma column_nodup n Ap Ai (Ax : arr b64) j : distinct_rows n Ap Ai -> 0 <= j < n -> NoDup (map fst (column (f0 FA) Ap Ai Ax j)).
Proof.
  intros H Hj. unfold column. rewrite map_map. cbn [fst]. specialize (H j). revert H. generalize (get 0 Ap j) (get 0 Ap (j + 1)). intros a b H.
  assert (G : forall k a', Z.to_nat (b - a') = k -> a <= a' -> NoDup (map (fun x => get 0 Ai x) (zr a' b))).
  { induction k; intros a' Hk Ha.
    - rewrite zr_nil by lia. constructor.
    - rewrite zr_cons by lia. cbn [map]. constructor; [|apply IHk; lia]. intros Hin. apply in_map_iff in Hin. destruct Hin as [x [E Hx]]. apply in_zr in Hx.
      apply (H a' x); auto; lia. }
  apply (G (Z.to_nat (b - a)) a); auto. lia.
Qed.

Lemma BF_mat n Ap Ai Ax Pf Qf r k : isperm n Pf Qf -> rows_in n n (column (f0 FA) Ap Ai Ax) -> 0 <= r < n -> 0 <= k < n ->
  BF (column (f0 FA) Ap Ai Ax) Pf Qf r k = mat_entry Ap Ai (reals Ax) (Pf r) (Pf k).
Proof.
  intros HP HR Hr Hk. rewrite mat_entB. unfold BF, entB, bcol, ent. rewrite !sumr_map. apply sumr_ext. intros [a v] Ha. cbn [fst snd].
  assert (0 <= a < n) by (eapply HR; [|exact Ha]; apply (pf_range _ _ _ HP); auto).
  destruct (Z.eqb_spec (Qf a) r) as [E|E], (Z.eqb_spec a (Pf r)) as [E2|E2]; auto.
  - exfalso. apply E2. rewrite <- E. symmetry. apply (pf_qf _ _ _ HP). auto.
  - exfalso. apply E. subst a. apply (qf_pf _ _ _ HP). auto.
Qed.

Lemma N_bound n : 0 <= n <= 2 ^ 50 -> (gamma (S (Z.to_nat n + Z.to_nat n)) <= 1)%R /\ (gamma (S (Z.to_nat n)) <= 1)%R /\
  gamma (S (Z.to_nat n)) = (IZR (n + 1) * tiny (-52))%R /\ (gamma (S (Z.to_nat n + Z.to_nat n)) + gamma (S (Z.to_nat n)) = IZR (3 * n + 2) * tiny (-52))%R.
Proof.
  intros Hn. assert (E1 : INR (S (Z.to_nat n)) = IZR (n + 1)) by (rewrite INR_IZR_INZ; f_equal; lia).
  assert (E2 : INR (S (Z.to_nat n + Z.to_nat n)) = IZR (2 * n + 1)) by (rewrite INR_IZR_INZ; f_equal; lia).
  unfold gamma. rewrite E1, E2.
  assert (U : (2 * uu = tiny (-52))%R) by (unfold uu, tiny; change (-52) with (1 + -53); rewrite bpow_plus; reflexivity).
  assert (UB : (IZR (2 * n + 1) * tiny (-52) <= 1)%R).
  { replace 1%R with (IZR (2 ^ 52) * tiny (-52))%R.
    - apply Rmult_le_compat_r; [unfold tiny; apply bpow_ge_0|]. apply IZR_le. lia.
    - unfold tiny. change (IZR (2 ^ 52)) with (bpow radix2 52). rewrite <- bpow_plus. reflexivity. }
  assert (0 <= tiny (-52))%R by (unfold tiny; apply bpow_ge_0).
  assert (IZR (n + 1) * tiny (-52) <= IZR (2 * n + 1) * tiny (-52))%R by (apply Rmult_le_compat_r; auto; apply IZR_le; lia).
  replace (2 * IZR (2 * n + 1) * uu)%R with (IZR (2 * n + 1) * tiny (-52))%R by (rewrite <- U; ring).
  replace (2 * IZR (n + 1) * uu)%R with (IZR (n + 1) * tiny (-52))%R by (rewrite <- U; ring).
  repeat split; try lra. rewrite <- Rmult_plus_distr_r, <- plus_IZR. f_equal. f_equal. lia.
Qed.

Lemma div_ok_F : div_ok FA.
Proof. intros x d. cbn [fdiv FA]. eauto. Qed.

(** The arrays of the factor and the functions of the recurrences. *)
Lemma factor_link n (col : cols b64) Pf Qf par Lp' Li (Lx Da : arr b64) (Lv : Z -> Z -> b64) (Dv : Z -> b64) :
  forest n par (brows Pf Qf col) -> Csc Lp' Li Lx n (lcol FA n col Pf Qf par Lv) -> vec Da n Dv ->
  finite_entries n Lp' Li Lx -> finite_first n Da ->
  (forall k i, 0 <= k < n -> In i (patlist n par (brows Pf Qf col k) k) -> is_finite (Lv k i) = true) /\
  (forall k, 0 <= k < n -> is_finite (Dv k) = true) /\
  (forall k, 0 <= k < n -> get 0%R (reals Da) k = DF Dv k) /\
  (forall i j, 0 <= i < n -> 0 <= j < n -> factor_entry Lp' Li (reals Lx) i j = LF n col Pf Qf par Lv i j).
Proof.
  intros HF HC HD HfL HfD. split.
  { intros k i Hk Hi. pose proof (pl_in FA n col Pf Qf par HF k i Hk Hi) as Hik. apply (HfL k i (Lv k i)); [lia|].
    apply (Csc_stored _ _ _ _ _ k i (Lv k i) HC ltac:(lia)). unfold lcF, lcol. apply in_map_iff. exists k. split; auto. apply in_lrows. split; auto. }
  split; [intros k Hk; apply (HfD k (Dv k) Hk); apply HD; auto|].
  split; [intros k Hk; rewrite get_reals; unfold DF; f_equal; apply get_rd, HD; auto|].
  intros i j Hi Hj. unfold factor_entry, LF. destruct (Z.eqb_spec i j) as [->|Hne]; auto.
  rewrite mat_entB, (Csc_column (f0 FA) _ _ _ _ _ j HC Hj). unfold entB, ent, lcol. rewrite map_map, sumr_map. cbn [fst snd].
  cbv beta. match goal with |- _ = (if ?b then _ else _) => destruct b eqn:I end.
  - apply (sumr_delta i (fun x => B2R (Lv x j))); [apply NoDup_lrows|]. apply in_lrows. split; auto. apply inb_true. exact I.
  - apply (sumr_delta_out i (fun x => B2R (Lv x j))). intros H. apply in_lrows in H. destruct H as [_ H]. apply inb_false in I. apply I. exact H.
Qed.

(** The diagonal added by the regularisation. *)
Lemma E_facts n (col : cols b64) Pf Qf par y Lv Dv : NumSpec FA n col Pf Qf par y Lv Dv -> (forall k, 0 <= k < n -> is_finite (Dv k) = true) ->
  forall k, 0 <= k < n -> let E := EF n col Pf Qf par y Lv Dv in DF Dv k <> 0%R /\
    ((E k = 0%R /\ (Rabs (DF Dv k) > 1 / 10 ^ 14 - / 10 ^ 28)%R) \/
     ((Rabs (DF Dv k - E k) <= 1 / 10 ^ 14 + / 10 ^ 28)%R /\ (Rabs (Rabs (DF Dv k) - 1 / 10 ^ 7) <= / 10 ^ 21)%R /\ ((DF Dv k - E k <= 0)%R <-> (DF Dv k < 0)%R))).
Proof.
  intros HN FD k Hk. cbv zeta. pose proof (FD k Hk) as Fk.
  assert (Er : Dv k = regularize FA (pivF n col Pf Qf par y Lv k)) by exact (DF_reg n col Pf Qf par y Lv Dv HN k Hk).
  unfold EF, DF. rewrite Er in *. set (d := pivF n col Pf Qf par y Lv k) in *. destruct (reg_F d Fk) as [_ [H1 [_ H2]]]. split; [exact H1|].
  pose proof eps_val as EV. pose proof delta_val as DV. 
  assert (C14 : (10 ^ 14 = 100000000000000)%R) by ring. assert (C28 : (10 ^ 28 = 10000000000000000000000000000)%R) by ring.
  assert (C7 : (10 ^ 7 = 10000000)%R) by ring. assert (C21 : (10 ^ 21 = 1000000000000000000000)%R) by ring.
  rewrite C14, C28, C7, C21. apply Rabs_le_inv in EV. 
  destruct H2 as [[H2 H3]|[H2 H3]].
  + left. rewrite H2. split; [ring|lra].
  + right. replace (B2R (regularize FA d) - (B2R (regularize FA d) - B2R d))%R with (B2R d) by ring. rewrite H3.
    pose proof DV as DV'. apply Rabs_le_inv in DV'. split; [lra|].
    destruct (Rle_dec (B2R d) 0).
    * rewrite Rabs_Ropp, (Rabs_pos_eq (B2R (ldl_delta FA))) by lra. split; [exact DV|]. split; intros; lra.
    * rewrite (Rabs_pos_eq (B2R (ldl_delta FA))) by lra. split; [exact DV|]. split; intros; lra.
Qed.

Section Factor.
Variables (n : Z) (Ap Ai : arr Z) (Ax : arr b64) (nz : Z) (P Pinv : option (arr Z)) (Lp Parent Lnz Flag : arr Z).
Variables (Lp' Parent' Lnz' Flag' : arr Z) (Pinv' : option (arr Z)) (w w' : numst FA) (r : Z).
Hypothesis Hn : 0 <= n <= 2 ^ 50.
Hypothesis Hmat : csc_arrays n n Ap Ai Ax nz.
Hypothesis Hdis : distinct_rows n Ap Ai.
Hypothesis Hord : usable_order n P Pinv.
Hypothesis HLp : zlen Lp = n + 1.
Hypothesis HPa : zlen Parent = n.
Hypothesis HLn : zlen Lnz = n.
Hypothesis HFl : zlen Flag = n.
Hypothesis Hsym : LDL_symbolic n Ap Ai Lp Parent Lnz Flag P Pinv = Ok (Lp', Parent', Lnz', Flag', Pinv').
Hypothesis Hw : work_sizes FA n (get 0 Lp' n) w.
Hypothesis Hnum : LDL_numeric FA n Ap Ai Ax Lp' Parent' w P Pinv' = Ok (r, w').
Hypothesis HfL : finite_entries n Lp' (nLi FA w') (nLx FA w').
Hypothesis HfD : finite_first n (nD FA w').
Notation L := (factor_entry Lp' (nLi FA w') (reals (nLx FA w'))).
Notation D := (get 0%R (reals (nD FA w'))).

Lemma setup_facts : exists Qf par, let col := column (f0 FA) Ap Ai Ax in let Pf := elim_index P in
  let y := fac_y FA (numF FA n col Pf Qf par n) in let Lv := fac_L FA (numF FA n col Pf Qf par n) in let Dv := fac_D FA (numF FA n col Pf Qf par n) in
  forest n par (brows Pf Qf col) /\ isperm n Pf Qf /\ rows_in n n col /\ (forall c, 0 <= c < n -> NoDup (map fst (col c))) /\
  NumSpec FA n col Pf Qf par y Lv Dv /\
  (forall k i, 0 <= k < n -> In i (patlist n par (brows Pf Qf col k) k) -> is_finite (Lv k i) = true) /\
  (forall k, 0 <= k < n -> is_finite (Dv k) = true) /\
  (forall k, 0 <= k < n -> D k = DF Dv k) /\
  (forall i j, 0 <= i < n -> 0 <= j < n -> L i j = LF n col Pf Qf par Lv i j) /\
  pget n P Pf /\ Csc Lp' (nLi FA w') (nLx FA w') n (lcF FA n col Pf Qf par) /\ vec (nD FA w') n Dv.
Proof.
  destruct (num_facts n Ap Ai nz P Pinv Lp Parent Lnz Flag (proj1 Hn) (ca_pattern _ _ _ _ _ _ Hmat) Hord HLp HPa HLn HFl
    FA Ax (ca_values _ _ _ _ _ _ Hmat) Lp' Parent' Lnz' Flag' Pinv' Hsym div_ok_F) as
    [Qf [par [C [R [HP [HF [H2 [_ [HgP HW]]]]]]]]].
  destruct (HW w Hw) as [w2 [E2 [HC [HD HS]]]]. rewrite Hnum in E2. injection E2 as _ <-.
  exists Qf, par. cbv zeta. set (col := column (f0 FA) Ap Ai Ax) in *. set (Pf := elim_index P) in *.
  pose proof (numF_spec FA n col Pf Qf par HF div_ok_F) as HN.
  set (y := fac_y FA (numF FA n col Pf Qf par n)) in *.
  set (Lv := fac_L FA (numF FA n col Pf Qf par n)) in *. set (Dv := fac_D FA (numF FA n col Pf Qf par n)) in *.
  split; [exact HF|]. split; [exact HP|]. split; [exact R|].
  split; [intros c Hc; apply (column_nodup n); auto|]. split; [exact HN|].
  destruct (factor_link n col Pf Qf par Lp' (nLi FA w') (nLx FA w') (nD FA w') Lv Dv HF HC HD HfL HfD) as [FL [FD [ED EL]]].
  split; [exact FL|]. split; [exact FD|]. split; [exact ED|]. split; [exact EL|]. auto.
Qed.

(** L D L' is the permuted matrix (its part at or above the diagonal, mirrored) plus the diagonal E of the
    regularisation, up to (n + 1) 2^-52 times |L| |D| |L|' and to underflows. *)
Theorem C59_factorisation : exists E : Z -> R,
  (forall i k, 0 <= i < n -> 0 <= k < n ->
    (Rabs (upper_entry Ap Ai (reals Ax) P i k + (if i =? k then E k else 0) - sumr (fun j => L i j * D j * L k j) (zr 0 n)) <=
     IZR (n + 1) * tiny (-52) * ldl_size n L D i k + tiny (-1074) * (IZR n + ld_size n L D (Z.min i k)))%R) /\
  (forall k, 0 <= k < n -> D k <> 0%R /\
    ((E k = 0%R /\ (Rabs (D k) > 1 / 10 ^ 14 - / 10 ^ 28)%R) \/
     ((Rabs (D k - E k) <= 1 / 10 ^ 14 + / 10 ^ 28)%R /\ (Rabs (Rabs (D k) - 1 / 10 ^ 7) <= / 10 ^ 21)%R /\ ((D k - E k <= 0)%R <-> (D k < 0)%R)))).
Proof.
  destruct setup_facts as [Qf [par [HF [HP [R [HU [HN [FL [FD [ED [EL _]]]]]]]]]]]. cbv zeta in *.
  set (col := column (f0 FA) Ap Ai Ax) in *. set (Pf := elim_index P) in *.
  set (y := fac_y FA (numF FA n col Pf Qf par n)) in *.
  set (Lv := fac_L FA (numF FA n col Pf Qf par n)) in *. set (Dv := fac_D FA (numF FA n col Pf Qf par n)) in *.
  destruct (N_bound n Hn) as [_ [G1 [G2 _]]]. pose proof (hp_small _ G1) as G3. pose proof eta_pos as T.
  assert (T2 : (2 * eta = tiny (-1074))%R) by (unfold eta, tiny; change (-1074) with (1 + -1075); rewrite bpow_plus; reflexivity).
  exists (EF n col Pf Qf par y Lv Dv). split.
  - assert (G : forall i k, 0 <= i <= k -> k < n ->
      (Rabs (mat_entry Ap Ai (reals Ax) (Pf i) (Pf k) + (if i =? k then EF n col Pf Qf par y Lv Dv k else 0) - sumr (fun j => L i j * D j * L k j) (zr 0 n)) <=
       IZR (n + 1) * tiny (-52) * ldl_size n L D i k + tiny (-1074) * (IZR n + ld_size n L D i))%R).
    { intros i k Hi Hk. pose proof (fact_err n col Pf Qf par HF HP R HU y Lv Dv HN FL FD k i Hi Hk) as B.
      unfold col at 1 in B. rewrite (BF_mat n Ap Ai Ax Pf Qf i k HP R) in B by lia.
      rewrite (sumr_ext _ (fun j => LF n col Pf Qf par Lv i j * DF Dv j * LF n col Pf Qf par Lv k j)%R).
      2:{ intros j Hj. apply in_zr in Hj. rewrite (EL i j), (EL k j), ED by lia. reflexivity. }
      eapply Rle_trans; [exact B|].
      assert (W1 : ldl_size n L D i k = WF n col Pf Qf par Lv Dv i k).
      { apply sumr_ext. intros j Hj. apply in_zr in Hj. rewrite (EL i j), (EL k j), ED by lia. reflexivity. }
      assert (W2 : ld_size n L D i = RF n col Pf Qf par Lv Dv i).
      { apply sumr_ext. intros j Hj. apply in_zr in Hj. rewrite (EL i j), ED by lia. reflexivity. }
      rewrite W1, W2.
      assert (0 <= WF n col Pf Qf par Lv Dv i k)%R by (apply sumr_nonneg; intros; repeat apply Rmult_le_pos; apply Rabs_pos).
      assert (0 <= RF n col Pf Qf par Lv Dv i)%R by (apply sumr_nonneg; intros; repeat apply Rmult_le_pos; apply Rabs_pos).
      assert (EI : INR (Z.to_nat n) = IZR n) by (rewrite INR_IZR_INZ; f_equal; lia). rewrite EI.
      assert (0 <= IZR n)%R by (apply IZR_le; lia).
      apply Rplus_le_compat; apply Rmult_le_compat_r; try lra. rewrite <- T2. apply Rmult_le_compat_r; lra. }
    intros i k Hi Hk. unfold upper_entry. destruct (Z.le_gt_cases i k) as [Hik|Hik].
    + rewrite Z.min_l, Z.max_r by lia. apply G; lia.
    + rewrite Z.min_r, Z.max_l by lia. specialize (G k i ltac:(lia) ltac:(lia)).
      destruct (Z.eqb_spec k i); [lia|]. destruct (Z.eqb_spec i k); [lia|].
      rewrite (sumr_ext _ (fun j => L k j * D j * L i j)%R) by (intros; ring).
      replace (ldl_size n L D i k) with (ldl_size n L D k i) by (apply sumr_ext; intros; ring). exact G.
  - intros k Hk. rewrite ED by auto. apply (E_facts n col Pf Qf par y Lv Dv HN FD k Hk).
Qed.
End Factor.

(** Factor and solve: the result is the exact solution of a system close to the given one.  The
    regularisation contributes the diagonal E; the rounding errors contribute at most (3 n + 2) 2^-52
    times |L| |D| |L|' |x|, and underflows the rest.  Row i stands for the caller's row p[i]. *)
Theorem C59_linear_solve n Ap Ai (Ax : arr b64) nz Lp Parent Lnz Flag p q alloc (X b : arr b64) :
  0 <= n <= 2 ^ 50 -> csc_arrays n n Ap Ai Ax nz -> distinct_rows n Ap Ai -> permutation_array p n -> zlen q = n ->
  zlen Lp = n + 1 -> zlen Parent = n -> zlen Lnz = n -> zlen Flag = n ->
  (forall lnz, work_sizes FA n lnz (alloc lnz)) -> zlen X = n -> zlen b = n -> filled b n ->
  (forall i j, 0 <= i < n -> 0 <= j < n -> mat_entry Ap Ai (reals Ax) i j = mat_entry Ap Ai (reals Ax) j i) ->
  exists x, factor_and_solve FA n Ap Ai Ax Lp Parent Lnz Flag p q alloc X b = Ok x /\ filled x n /\ zlen x = n /\
    forall Lp' Parent' Lnz' Flag' Pinv' r w',
      LDL_symbolic n Ap Ai Lp Parent Lnz Flag (Some p) (Some q) = Ok (Lp', Parent', Lnz', Flag', Pinv') ->
      LDL_numeric FA n Ap Ai Ax Lp' Parent' (alloc (get 0 Lp' n)) (Some p) Pinv' = Ok (r, w') ->
      finite_entries n Lp' (nLi FA w') (nLx FA w') -> finite_first n (nD FA w') -> finite_first n x ->
      let L := factor_entry Lp' (nLi FA w') (reals (nLx FA w')) in let D := get 0%R (reals (nD FA w')) in
      let xr := fun k => get 0%R (reals x) (get 0 p k) in
      exists E : Z -> R,
      (forall i, 0 <= i < n ->
        (Rabs (get 0 (reals b) (get 0%Z p i) - (sumr (fun c => mat_entry Ap Ai (reals Ax) (get 0%Z p i) c * get 0 (reals x) c) (zr 0 n) + E i * xr i)) <=
         IZR (3 * n + 2) * tiny (-52) * sumr (fun k => ldl_size n L D i k * Rabs (xr k)) (zr 0 n) +
         IZR (n + 1) * tiny (-1074) *
           (1 + ld_size n L D i + sumr (fun k => (1 + ld_size n L D i + ld_size n L D k) * Rabs (xr k)) (zr 0 n)))%R) /\
      (forall k, 0 <= k < n -> (E k = 0%R /\ (Rabs (D k) > 1 / 10 ^ 14 - / 10 ^ 28)%R) \/
        ((Rabs (D k - E k) <= 1 / 10 ^ 14 + / 10 ^ 28)%R /\ (Rabs (Rabs (D k) - 1 / 10 ^ 7) <= / 10 ^ 21)%R)).
Proof.
  intros Hn Hmat Hdis Hp Hq L1 L2 L3 L4 HAl LX Lb Hb Hs. pose proof (proj1 Hn) as Hn0.
  assert (Hord : usable_order n (Some p) (Some q)) by (split; eauto).
  destruct (C06_symbolic n Ap Ai nz (Some p) (Some q) Lp Parent Lnz Flag Hn0 (ca_pattern _ _ _ _ _ _ Hmat) Hord L1 L2 L3 L4)
    as [Lp' [Pa' [Ln' [Fl' [Pi' [Es _]]]]]].
  destruct (num_facts n Ap Ai nz (Some p) (Some q) Lp Parent Lnz Flag Hn0 (ca_pattern _ _ _ _ _ _ Hmat) Hord L1 L2 L3 L4
    FA Ax (ca_values _ _ _ _ _ _ Hmat) Lp' Pa' Ln' Fl' Pi' Es div_ok_F) as
    [Qf [par [C [R [HP [HF [H2 [_ [HgP HW]]]]]]]]].
  destruct (HW _ (HAl (get 0 Lp' n))) as [w [En [HC [HD HS]]]].
  set (col := column (f0 FA) Ap Ai Ax) in *. set (Pf := elim_index (Some p)) in *.
  pose proof (numF_spec FA n col Pf Qf par HF div_ok_F) as HN.
  set (y := fac_y FA (numF FA n col Pf Qf par n)) in *.
  set (Lv := fac_L FA (numF FA n col Pf Qf par n)) in *. set (Dv := fac_D FA (numF FA n col Pf Qf par n)) in *.
  assert (HvP : vec p n Pf) by (intros k Hk; apply (HgP k Hk)).
  assert (HL : lower FA n (lcF FA n col Pf Qf par)).
  { intros j r v Hj Hin. eapply (proj1 (lcol_lower FA n col Pf Qf par HF _ j r v Hj Hin)). }
  set (bp := fun k => get (f0 FA) b (Pf k)).
  assert (Hrun : wp (factor_and_solve FA n Ap Ai Ax Lp Parent Lnz Flag p q alloc X b)
    (fun x => is_vec x n (fun a => ws n col Pf Qf par Lv Dv bp (Qf a)))).
  { unfold factor_and_solve. wb. eapply wp_eq; [exact Es|]. wb. eapply wp_eq; [exact En|].
    wb. eapply wp_mono.
    { eapply LDL_perm_ok; [exact Hn0|exact LX|apply (filled_vec (f0 FA)); exact Hb|exact HvP|apply (pf_range _ _ _ HP)]. }
    intros d1 H1. wb. eapply wp_mono.
    { eapply (LDL_lsolve_ok FA); [exact Hn0|exact HC|exact HL|exact H1]. }
    intros d2 Hd2. wb. eapply wp_mono.
    { eapply (LDL_dsolve_ok FA); [exact Hn0|exact Hd2|exact HD|]. intros j Hj. eexists. reflexivity. }
    intros d3 H3. wb. eapply wp_mono.
    { eapply (LDL_ltsolve_ok FA); [exact Hn0|exact HC|exact HL|exact H3]. }
    intros d4 H4.
    eapply (LDL_permt_ok FA n b d4 p Pf Qf); [exact Hn0|exact Lb|apply is_vec_vec; exact H4|exact HvP|exact HP]. }
  apply (proj1 (wp_exists _ _)) in Hrun. destruct Hrun as [x [Ex [Lx Hx]]].
  exists x. split; [exact Ex|]. split; [intros i Hi; rewrite Hx by auto; eauto|]. split; [exact Lx|].
  intros Lp2 Pa2 Ln2 Fl2 Pi2 r w' Es2 En2 HfL HfD Hfx. rewrite Es in Es2. injection Es2 as <- <- <- <- <-.
  rewrite En in En2. injection En2 as <- <-. cbv zeta.
  destruct (factor_link n col Pf Qf par Lp' (nLi FA w) (nLx FA w) (nD FA w) Lv Dv HF HC HD HfL HfD) as [FL [FD [ED EL]]].
  assert (HU : forall c, 0 <= c < n -> NoDup (map fst (col c))) by (intros c Hc; apply (column_nodup n); auto).
  exists (EF n col Pf Qf par y Lv Dv). split.
  2:{ intros k Hk. rewrite ED by auto. destruct (E_facts n col Pf Qf par y Lv Dv HN FD k Hk) as [_ [H|H]]; [left; exact H|right; split; apply H]. }
  assert (Fw : forall k, 0 <= k < n -> is_finite (ws n col Pf Qf par Lv Dv bp k) = true).
  { intros k Hk. pose proof (pf_range _ _ _ HP k Hk) as Hpk. pose proof (Hx (Pf k) Hpk) as E1. rewrite (qf_pf _ _ _ HP k Hk) in E1. exact (Hfx (Pf k) _ Hpk E1). }
  assert (HB : forall i j, 0 <= i < n -> 0 <= j < n -> BF col Pf Qf i j = BF col Pf Qf j i).
  { intros i j Hi Hj. unfold col. rewrite !(BF_mat n Ap Ai Ax Pf Qf) by auto. apply Hs; apply (pf_range _ _ _ HP); auto. }
  assert (Exr : forall k, 0 <= k < n -> get 0%R (reals x) (get 0 p k) = B2R (ws n col Pf Qf par Lv Dv bp k)).
  { intros k Hk. rewrite get_reals. f_equal. apply get_rd. change (get 0 p k) with (Pf k). rewrite Hx by (apply (pf_range _ _ _ HP); auto).
    rewrite (qf_pf _ _ _ HP k Hk). reflexivity. }
  intros i Hi. pose proof (total_err n col Pf Qf par HF HP R HU y Lv Dv HN FL FD bp Fw HB i Hi) as B.
  rewrite Exr by auto.
  assert (Eb : get 0%R (reals b) (get 0 p i) = B2R (bp i)) by apply get_reals. rewrite Eb.
  assert (Es1 : sumr (fun c => mat_entry Ap Ai (reals Ax) (get 0%Z p i) c * get 0 (reals x) c)%R (zr 0 n) =
    sumr (fun k => BF col Pf Qf i k * B2R (ws n col Pf Qf par Lv Dv bp k))%R (zr 0 n)).
  { rewrite (sumr_ext (fun k => BF col Pf Qf i k * B2R (ws n col Pf Qf par Lv Dv bp k))%R (fun k => mat_entry Ap Ai (reals Ax) (get 0%Z p i) (Pf k) * get 0 (reals x) (Pf k))%R).
    2:{ intros k Hk. apply in_zr in Hk. unfold col. rewrite (BF_mat n Ap Ai Ax Pf Qf) by auto. fold col. f_equal. symmetry. apply Exr. auto. }
    apply (sumr_reindex (fun c => (mat_entry Ap Ai (reals Ax) (get 0%Z p i) c * get 0 (reals x) c)%R) Pf (zr 0 n) (zr 0 n)).
    apply NoDup_Permutation.
    - assert (G : forall l, NoDup l -> (forall k, In k l -> 0 <= k < n) -> NoDup (map Pf l)).
      { induction l as [|k l IH]; intros ND HBd; simpl; [constructor|]. inversion ND; subst. constructor.
        - intros H. apply in_map_iff in H. destruct H as [k' [Ek Hk']].
          assert (k' = k); [|subst; tauto].
          rewrite <- (qf_pf _ _ _ HP k'), <- (qf_pf _ _ _ HP k), Ek by (apply HBd; simpl; auto). reflexivity.
        - apply IH; auto. intros; apply HBd; simpl; auto. }
      apply G; [apply NoDup_zr|]. intros k Hk. apply in_zr in Hk. auto.
    - apply NoDup_zr.
    - intros c. rewrite in_map_iff. split.
      + intros [k [<- Hk]]. apply in_zr in Hk. apply in_zr. apply (pf_range _ _ _ HP). auto.
      + intros Hc. apply in_zr in Hc. exists (Qf c). split; [apply (pf_qf _ _ _ HP); auto|].
        apply in_zr. apply (qf_range _ _ _ HP). auto. }
  rewrite Es1.
  set (L := factor_entry Lp' (nLi FA w) (reals (nLx FA w))) in *. set (D := get 0%R (reals (nD FA w))) in *.
  assert (W1 : forall k, 0 <= k < n -> ldl_size n L D i k = WF n col Pf Qf par Lv Dv i k).
  { intros k Hk. apply sumr_ext. intros j Hj. apply in_zr in Hj. rewrite (EL i j), (EL k j), ED by lia. reflexivity. }
  assert (W2 : forall k, 0 <= k < n -> ld_size n L D k = RF n col Pf Qf par Lv Dv k).
  { intros k Hk. apply sumr_ext. intros j Hj. apply in_zr in Hj. rewrite (EL k j), ED by lia. reflexivity. }
  rewrite (sumr_ext (fun k => ldl_size n L D i k * Rabs (get 0%R (reals x) (get 0%Z p k)))%R (fun k => WF n col Pf Qf par Lv Dv i k * Rabs (B2R (ws n col Pf Qf par Lv Dv bp k)))%R).
  2:{ intros k Hk. apply in_zr in Hk. rewrite W1, Exr by auto. reflexivity. }
  rewrite (sumr_ext (fun k => (1 + ld_size n L D i + ld_size n L D k) * Rabs (get 0%R (reals x) (get 0%Z p k)))%R
    (fun k => (1 + RF n col Pf Qf par Lv Dv i + RF n col Pf Qf par Lv Dv k) * Rabs (B2R (ws n col Pf Qf par Lv Dv bp k)))%R).
  2:{ intros k Hk. apply in_zr in Hk. rewrite !W2, Exr by auto. reflexivity. }
  rewrite W2 by auto. eapply Rle_trans; [exact B|].
  destruct (N_bound n Hn) as [G0 [G1 [_ G2]]]. pose proof (hp_small _ G0) as S0. pose proof (hp_small _ G1) as S1. pose proof eta_pos as T.
  assert (T2 : (2 * eta = tiny (-1074))%R) by (unfold eta, tiny; change (-1074) with (1 + -1075); rewrite bpow_plus; reflexivity).
  assert (EI : (INR (Z.to_nat n) + 1 = IZR (n + 1))%R) by (rewrite plus_IZR, INR_IZR_INZ; f_equal; f_equal; lia). rewrite EI.
  assert (P1 : (0 <= sumr (fun k => WF n col Pf Qf par Lv Dv i k * Rabs (B2R (ws n col Pf Qf par Lv Dv bp k))) (zr 0 n))%R).
  { apply sumr_nonneg. intros. apply Rmult_le_pos; [|apply Rabs_pos]. apply sumr_nonneg. intros. repeat apply Rmult_le_pos; apply Rabs_pos. }
  assert (PR : forall k, (0 <= RF n col Pf Qf par Lv Dv k)%R) by (intros; apply sumr_nonneg; intros; repeat apply Rmult_le_pos; apply Rabs_pos).
  set (Q := sumr (fun k => (1 + RF n col Pf Qf par Lv Dv i + RF n col Pf Qf par Lv Dv k) * Rabs (B2R (ws n col Pf Qf par Lv Dv bp k)))%R (zr 0 n)) in *.
  assert (P2 : (0 <= Q)%R).
  { apply sumr_nonneg. intros k _. apply Rmult_le_pos; [|apply Rabs_pos]. pose proof (PR i). pose proof (PR k). lra. }
  pose proof (PR i) as PRi.
  apply Rplus_le_compat; apply Rmult_le_compat_r; try lra. rewrite <- T2.
  assert (0 <= IZR (n + 1))%R by (apply IZR_le; lia).
  replace (IZR (n + 1) * (2 * eta))%R with (2 * (eta * IZR (n + 1)))%R by ring.
  rewrite Rmult_assoc. apply Rmult_le_compat_r; [apply Rmult_le_pos; lra|]. lra.
Qed.

(** ** Case *)

(** K = [3 1; 1 1]: 1/3 is not a double, so the factor is inexact; the hypotheses of both theorems hold. *)
Definition r22_x : arr b64 := fs FA [3; 1; 1; 1].

Definition finb (a : arr b64) : bool := forallb (fun o : option b64 => match o with Some v => is_finite v | None => true end) a.

Lemma finb_rd a i v : finb a = true -> rd a i = Ok v -> is_finite v = true.
Proof.
  intros H E. unfold rd in E. destruct (i <? 0); [discriminate|]. destruct (nth_error a (Z.to_nat i)) as [[x|]|] eqn:N; try discriminate.
  injection E as <-. apply nth_error_In in N. exact (proj1 (forallb_forall _ _) H _ N).
Qed.

Definition r22_run : res (Z * numst FA) :=
  LDL_numeric FA 2 k22_p k22_i r22_x (zs [0; 1; 1]) (zs [1; -1]) (k22_w FA 1) (Some (zs [0; 1])) (Some (zs [0; 1])).
Definition r22_x_run : res (arr b64) :=
  factor_and_solve FA 2 k22_p k22_i r22_x (malloc _ 3) (malloc _ 2) (malloc _ 2) (malloc _ 2) (zs [0; 1]) (malloc _ 2) (k22_w FA) (malloc _ 2) (fs FA [4; 2]).

Lemma r22_num : match r22_run with Ok (r, w) => (r =? 2) && finb (nLx FA w) && finb (nD FA w) && (zlen (nLx FA w) =? 1) | _ => false end = true.
Proof. vm_compute. reflexivity. Qed.
Lemma r22_sol : match r22_x_run with Ok x => finb x && (zlen x =? 2) | _ => false end = true.
Proof. vm_compute. reflexivity. Qed.

Theorem C59_case :
  csc_arrays 2 2 k22_p k22_i r22_x 4 /\ distinct_rows 2 k22_p k22_i /\ permutation_array (zs [0; 1]) 2 /\
  (forall i j, 0 <= i < 2 -> 0 <= j < 2 -> mat_entry k22_p k22_i (reals r22_x) i j = mat_entry k22_p k22_i (reals r22_x) j i) /\
  LDL_symbolic 2 k22_p k22_i (malloc _ 3) (malloc _ 2) (malloc _ 2) (malloc _ 2) (Some (zs [0; 1])) (Some (malloc _ 2)) =
    Ok (zs [0; 1; 1], zs [1; -1], zs [1; 0], zs [1; 1], Some (zs [0; 1])) /\
  exists w' x, LDL_numeric FA 2 k22_p k22_i r22_x (zs [0; 1; 1]) (zs [1; -1]) (k22_w FA 1) (Some (zs [0; 1])) (Some (zs [0; 1])) = Ok (2, w') /\
    finite_entries 2 (zs [0; 1; 1]) (nLi FA w') (nLx FA w') /\ finite_first 2 (nD FA w') /\
    factor_and_solve FA 2 k22_p k22_i r22_x (malloc _ 3) (malloc _ 2) (malloc _ 2) (malloc _ 2) (zs [0; 1]) (malloc _ 2) (k22_w FA) (malloc _ 2) (fs FA [4; 2]) = Ok x /\
    finite_first 2 x.
Proof.
  split.
  { constructor; [apply (ca_pattern _ _ _ _ _ _ (k22_mat FA))|]. intros k Hk. enum k; eexists; reflexivity. }
  split.
  { intros j k1 k2 Hj H1 H2 H3. enum j.
    - change (get 0 k22_p 0) with 0 in *. change (get 0 k22_p (0 + 1)) with 2 in *. assert (k1 = 0) by lia. assert (k2 = 1) by lia. subst. discriminate.
    - change (get 0 k22_p 1) with 2 in *. change (get 0 k22_p (1 + 1)) with 4 in *. assert (k1 = 2) by lia. assert (k2 = 3) by lia. subst. discriminate. }
  split; [perm_concrete|]. split.
  { intros i j Hi Hj. rewrite !mat_entB. enum i; enum j; try reflexivity; unfold entB, ent;
      change (column (f0 FA) k22_p k22_i r22_x 0) with [(0, b64_ofZ 3); (1, b64_ofZ 1)]; change (column (f0 FA) k22_p k22_i r22_x 1) with [(0, b64_ofZ 1); (1, b64_ofZ 1)];
      cbn [map sumr fst snd Z.eqb Pos.eqb]; ring. }
  split; [reflexivity|].
  pose proof r22_num as H. pose proof r22_sol as G. fold r22_run. fold r22_x_run.
  destruct r22_run as [[r w]| |]; try discriminate H. destruct r22_x_run as [x| |]; try discriminate G.
  apply andb_prop in H. destruct H as [H H4]. apply andb_prop in H. destruct H as [H H3]. apply andb_prop in H. destruct H as [H1 H2].
  apply andb_prop in G. destruct G as [G1 G2]. apply Z.eqb_eq in H1. subst r.
  exists w, x. split; [reflexivity|]. split; [intros i j v _ [a [b [k [_ [_ [_ [_ E]]]]]]]; exact (finb_rd _ _ _ H2 E)|].
  split; [intros i v _ E; exact (finb_rd _ _ _ H3 E)|]. split; [reflexivity|intros i v _ E; exact (finb_rd _ _ _ G1 E)].
Qed.

Print Assumptions C59_factorisation.
Print Assumptions C59_linear_solve.
Print Assumptions C59_case.
