(** Properties C06-C09, C31, C32, C41: the LDL' package. *)
From Coq Require Import ZArith Reals List Lia Lra Bool.
From Flocq Require Import IEEE754.BinarySingleNaN.
From Verif Require Import Res Partial Arith Lists MSparse MLdl MSolver Csc SemVec Flat LdlSpec LdlSym LdlNum LdlSolve LdlR LdlFun
  VecOps Iter SafeInst Setup Session QpSpec NewtonR Spec SpecLink Api Demo P2_Kkt.
Import ListNotations.
Open Scope Z_scope.
Open Scope res_scope.

(** ** Specification *)

(** A usable ordering argument: either a permutation and room for its inverse, or none. *)
Definition usable_order (n : Z) (P Pinv : option (arr Z)) : Prop :=
  match P with
  | Some p => permutation_array p n /\ exists q, Pinv = Some q /\ zlen q = n
  | None => Pinv = None
  end.

(** The index that is eliminated in step k. *)
Definition elim_index (P : option (arr Z)) (k : Z) : Z := match P with Some p => get 0 p k | None => k end.

(** Work and output arrays of the right sizes; contents arbitrary, possibly never written. *)
Record work_sizes (A : Arith) (n lnz : Z) (w : numst A) : Prop := mkWork {
  ws_Lnz : zlen (nLnz A w) = n;
  ws_Li : lnz <= zlen (nLi A w);
  ws_Lx : lnz <= zlen (nLx A w);
  ws_D : zlen (nD A w) = n;
  ws_Y : zlen (nY A w) = n;
  ws_Pattern : zlen (nPattern A w) = n;
  ws_Flag : zlen (nFlag A w) = n
}.

(** Entry (r, j) of the unit lower triangular factor held by three arrays. *)
Definition factor_entry (Lp Li : arr Z) (Lx : arr R) (r j : Z) : R :=
  if r =? j then 1%R else mat_entry Lp Li Lx r j.

(** Entry (r, k) of P K P' when only the part at or above the diagonal (in elimination order) counts. *)
Definition upper_entry (Ap Ai : arr Z) (Ax : arr R) (P : option (arr Z)) (r k : Z) : R :=
  mat_entry Ap Ai Ax (elim_index P (Z.min r k)) (elim_index P (Z.max r k)).

(** ** Proof *)

Lemma order_link n P Pinv : 0 <= n -> usable_order n P Pinv -> exists Qf, isperm n (elim_index P) Qf /\
  pget n P (elim_index P) /\
  (match P with
   | Some p => vec p n (elim_index P) /\ exists q, Pinv = Some q /\ zlen q = n
   | None => (forall k, 0 <= k < n -> elim_index P k = k) /\ Pinv = None
   end).
Proof.
  intros Hn H. destruct P as [p|]; cbn [usable_order elim_index] in *.
  - destruct H as [H1 H2]. destruct (perm_link _ _ H1) as [Qf [H3 H4]]. exists Qf.
    split; [exact H3|]. split; [intros k Hk; apply H4; auto|]. auto.
  - exists (fun k => k). split; [split; auto|]. split; [intros k Hk; reflexivity|]. auto.
Qed.

Lemma filter_zr_sorted p a b t r r' :
  nth_error (filter p (zr a b)) t = Some r -> nth_error (filter p (zr a b)) (S t) = Some r' -> r < r'.
Proof.
  assert (G : forall k a, Z.to_nat (b - a) = k -> forall t r r',
    nth_error (filter p (zr a b)) t = Some r -> nth_error (filter p (zr a b)) (S t) = Some r' -> r < r').
  2:{ eapply G. reflexivity. }
  clear. induction k; intros a Hk t r r' H1 H2.
  - rewrite zr_nil in H1 by lia. destruct t; discriminate.
  - rewrite zr_cons in H1, H2 by lia. cbn [filter] in H1, H2. destruct (p a).
    + destruct t; cbn [nth_error] in *; [|eapply (IHk (a + 1)); eauto; lia].
      injection H1 as <-. change (nth_error (filter p (zr (a + 1) b)) 0 = Some r') in H2.
      apply nth_error_In, filter_In in H2. destruct H2 as [H2 _]. apply in_zr in H2. lia.
    + eapply (IHk (a + 1)); eauto; lia.
Qed.

Section Facts.
Variables (n : Z) (Ap Ai : arr Z) (nz : Z) (P Pinv : option (arr Z)) (Lp Parent Lnz Flag : arr Z).
Hypothesis Hn : 0 <= n.
Hypothesis Hpat : csc_pattern n n Ap Ai nz.
Hypothesis Hord : usable_order n P Pinv.
Hypothesis HLp : zlen Lp = n + 1.
Hypothesis HPa : zlen Parent = n.
Hypothesis HLn : zlen Lnz = n.
Hypothesis HFl : zlen Flag = n.

Section OneA.
Variable A : Arith.
Variable Ax : arr (car A).
Hypothesis HAx : filled Ax nz.
Notation col := (column (f0 A) Ap Ai Ax).
Notation Pf := (elim_index P).

Lemma sym_facts : exists Qf par Lp' Parent' Lnz' Flag' Pinv',
  LDL_symbolic n Ap Ai Lp Parent Lnz Flag P Pinv = Ok (Lp', Parent', Lnz', Flag', Pinv') /\
  Csc Ap Ai Ax n col /\ rows_in n n col /\ isperm n Pf Qf /\ pget n P Pf /\ pget n Pinv' Qf /\
  forest n par (brows Pf Qf col) /\ is_vec Parent' n par /\
  is_vec Lp' (n + 1) (Lpf A n col Pf Qf par) /\
  (match P with Some _ => exists q, Pinv' = Some q /\ is_vec q n Qf | None => Pinv' = None end) /\
  zlen Lnz' = n /\ zlen Flag' = n.
Proof.
  destruct (csc_link (f0 A) n n Ap Ai Ax nz Hn (mkCscArrays _ _ _ _ _ _ _ Hpat HAx)) as [C [R S]].
  destruct (order_link n P Pinv Hn Hord) as [Qf [HP [Hg HPP]]].
  pose proof (LDL_symbolic_ok n Ap Ai Ax col Pf Qf Lp Parent Lnz Flag P Pinv Hn C R HP HLp HPa HLn HFl HPP) as H.
  apply wp_exists in H. destruct H as [[[[[Lp' Pa'] Ln'] Fl'] Pi'] [E [par [HF [Hout [H1 [H2 [H3 [H4 [H5 H6]]]]]]]]]].
  exists Qf, par, Lp', Pa', Ln', Fl', Pi'. do 9 (split; [auto|]). split; [auto|]. split; [apply H2|auto].
Qed.

Variables (Lp' Parent' Lnz' Flag' : arr Z) (Pinv' : option (arr Z)).
Hypothesis Hsym : LDL_symbolic n Ap Ai Lp Parent Lnz Flag P Pinv = Ok (Lp', Parent', Lnz', Flag', Pinv').
Hypothesis Hdiv : div_ok A.

Lemma num_facts : exists Qf par,
  Csc Ap Ai Ax n col /\ rows_in n n col /\ isperm n Pf Qf /\ forest n par (brows Pf Qf col) /\
  is_vec Lp' (n + 1) (Lpf A n col Pf Qf par) /\ pget n Pinv' Qf /\ pget n P Pf /\
  forall w, work_sizes A n (get 0 Lp' n) w -> exists w',
  LDL_numeric A n Ap Ai Ax Lp' Parent' w P Pinv' = Ok (n, w') /\
  Csc Lp' (nLi A w') (nLx A w') n (lcF A n col Pf Qf par) /\ vec (nD A w') n (fac_D A (numF A n col Pf Qf par n)) /\
  NumSt A n col Pf Qf par (fac_L A (numF A n col Pf Qf par n)) (fac_D A (numF A n col Pf Qf par n)) n w'.
Proof.
  destruct sym_facts as [Qf [par [Lp2 [Pa2 [Ln2 [Fl2 [Pi2 [E [C [R [HP [Hg [Hg' [HF [H1 [H2 [H3 H4]]]]]]]]]]]]]]]]].
  rewrite Hsym in E. injection E as -> -> -> -> ->.
  exists Qf, par. split; [exact C|]. split; [exact R|]. split; [exact HP|]. split; [exact HF|].
  split; [exact H2|]. split; [exact Hg'|]. split; [exact Hg|]. intros w Hw.
  assert (El : get 0 Lp2 n = Lpf A n col Pf Qf par n) by (apply get_rd, H2; lia).
  rewrite El in Hw. destruct Hw as [W1 W2 W3 W4 W5 W6 W7].
  pose proof (numF_spec A n col Pf Qf par HF Hdiv) as HN.
  pose proof (LDL_numeric_ok A n col Pf Qf par HF _ _ _ HN Ap Ai Ax Lp2 Pa2 P Pi2 w Hn C R HP Hg Hg'
    (is_vec_vec _ _ _ H1) (is_vec_vec _ _ _ H2) W1 W2 W3 W4 W5 W6 W7) as HW.
  apply wp_exists in HW. destruct HW as [[d w'] [E2 [Ed HS]]]. cbn [fst snd] in *. subst d.
  exists w'. split; [exact E2|].
  split; [eapply (NumSt_Csc A n col Pf Qf par); [lia|apply is_vec_vec; exact H2|exact HS]|].
  split; [|exact HS]. destruct HS as [_ [_ [_ [_ [_ [_ [_ [_ [_ [_ [R4 _]]]]]]]]]]]. exact R4.
Qed.

End OneA.

(** C06, first half: the symbolic phase. *)
Theorem C06_symbolic : exists Lp' Parent' Lnz' Flag' Pinv',
  LDL_symbolic n Ap Ai Lp Parent Lnz Flag P Pinv = Ok (Lp', Parent', Lnz', Flag', Pinv') /\
  (* inverse permutation *)
  (match P with
   | Some p => exists q, Pinv' = Some q /\ zlen q = n /\
       (forall k a, 0 <= k < n -> rd p k = Ok a -> rd q a = Ok k) /\ permutation_array q n
   | None => Pinv' = None
   end) /\
  (* forest *)
  (forall i, 0 <= i < n -> exists v, rd Parent' i = Ok v /\ (v = -1 \/ i < v < n)) /\
  (* column pointers *)
  rd Lp' 0 = Ok 0 /\ (forall j, 0 <= j < n -> exists a b, rd Lp' j = Ok a /\ rd Lp' (j + 1) = Ok b /\ a <= b) /\
  zlen Lp' = n + 1 /\ zlen Parent' = n /\ zlen Lnz' = n /\ zlen Flag' = n.
Proof.
  set (Ax := map (fun _ : Z => Some 0%R) (zr 0 nz)).
  assert (HAx : filled Ax nz).
  { intros i Hi. exists 0%R. unfold rd, Ax. destruct (Z.ltb_spec i 0); [lia|]. rewrite nth_error_map.
    destruct (nth_error (zr 0 nz) (Z.to_nat i)) eqn:E; [reflexivity|]. apply nth_error_None in E.
    pose proof (zlen_zr 0 nz). unfold zlen in *. lia. }
  destruct (sym_facts RA Ax HAx) as [Qf [par [Lp2 [Pa2 [Ln2 [Fl2 [Pi2 [E [C [R [HP [Hg [Hg' [HF [H1 [H2 [H3 [H4 H5]]]]]]]]]]]]]]]]]].
  exists Lp2, Pa2, Ln2, Fl2, Pi2. split; [exact E|]. split.
  { destruct P as [p|]; auto. destruct H3 as [q [-> Hq]]. exists q. split; auto. split; [apply Hq|]. split.
    - intros k a Hk Ha. pose proof (Hg k Hk) as Hg2. cbn [perm_get] in Hg2. rewrite Ha in Hg2. injection Hg2 as ->.
      rewrite (proj2 Hq) by (apply (pf_range _ _ _ HP); auto). f_equal. apply (qf_pf _ _ _ HP). auto.
    - apply (perm_unlink q n Qf (elim_index (Some p))); [|apply is_vec_vec; auto].
      destruct HP. split; auto. }
  split.
  { intros i Hi. exists (par i). split; [apply H1; auto|]. apply (fo_par _ _ _ HF). auto. }
  split; [destruct H2 as [L2 R2]; rewrite R2 by lia; reflexivity|]. split.
  { intros j Hj. eexists _, _. split; [apply H2; lia|]. split; [apply H2; lia|]. apply Lpf_mono. lia. }
  split; [apply H2|]. split; [apply H1|]. auto.
Qed.

(** C06, second half: every numeric factorisation with the arrays computed above, in any arithmetic, for
    any values and any content of the work arrays, terminates in bounds and fills exactly the reserved
    storage. *)
Theorem C06_numeric A (Ax : arr (car A)) Lp' Parent' Lnz' Flag' Pinv' w : filled Ax nz -> div_ok A ->
  LDL_symbolic n Ap Ai Lp Parent Lnz Flag P Pinv = Ok (Lp', Parent', Lnz', Flag', Pinv') ->
  work_sizes A n (get 0 Lp' n) w ->
  exists w', LDL_numeric A n Ap Ai Ax Lp' Parent' w P Pinv' = Ok (n, w') /\
    csc_arrays n n Lp' (nLi A w') (nLx A w') (get 0 Lp' n) /\ sorted_columns n Lp' (nLi A w') /\
    (forall r j v, 0 <= j < n -> stored Lp' (nLi A w') (nLx A w') r j v -> j < r < n) /\
    filled (nD A w') n /\
    (forall j, 0 <= j < n -> rd (nLnz A w') j = Ok (get 0 Lp' (j + 1) - get 0 Lp' j)) /\
    work_sizes A n (get 0 Lp' n) w'.
Proof.
  intros HAx Hdiv Hsym Hw.
  destruct (num_facts A Ax HAx Lp' Parent' Lnz' Flag' Pinv' Hsym Hdiv) as
    [Qf [par [C [R [HP [HF [H2 [_ [_ HW]]]]]]]]]. destruct (HW w Hw) as [w' [E [HC [HD HS]]]].
  set (col := column (f0 A) Ap Ai Ax) in *. set (Pf := elim_index P) in *.
  set (Lv := fac_L A (numF A n col Pf Qf par n)) in *.
  assert (El : get 0 Lp' n = Lpf A n col Pf Qf par n) by (apply get_rd, H2; lia).
  exists w'. split; [exact E|]. split.
  { rewrite El, <- (lcol_start A n col Pf Qf par Lv). apply Csc_arrays; auto. unfold rows_in. intros j r v Hj Hin.
    eapply lcol_rows; eauto. }
  split.
  { intros j a b k Hj Ha Hb Hk1 Hk2. rewrite (csc_jc _ _ _ _ _ HC) in Ha, Hb by lia. injection Ha as <-. injection Hb as <-.
    rewrite start_succ in Hk2 by lia.
    set (t := Z.to_nat (k - start (lcF A n col Pf Qf par) j)).
    assert (Ek : k = start (lcF A n col Pf Qf par) j + Z.of_nat t) by (unfold t; lia).
    assert (Hlen : zlen (lcF A n col Pf Qf par j) = zlen (lrows A n col Pf Qf par n j)) by (apply zlen_map).
    destruct (nth_error (lrows A n col Pf Qf par n j) t) as [r|] eqn:E1;
      [|apply nth_error_None in E1; unfold zlen in *; lia].
    destruct (nth_error (lrows A n col Pf Qf par n j) (S t)) as [r'|] eqn:E3;
      [|apply nth_error_None in E3; unfold zlen in *; lia].
    exists r, r'. split; [|split].
    - rewrite Ek. apply (csc_ir _ _ _ _ _ HC j t r (Lv r j)); auto. unfold lcF, lcol. rewrite nth_error_map, E1. reflexivity.
    - replace (k + 1) with (start (lcF A n col Pf Qf par) j + Z.of_nat (S t)) by lia.
      apply (csc_ir _ _ _ _ _ HC j (S t) r' (Lv r' j)); auto. unfold lcF, lcol. rewrite nth_error_map, E3. reflexivity.
    - unfold lrows in E1, E3. revert E1 E3. apply filter_zr_sorted. }
  split.
  { intros r j v Hj Hst. apply (Csc_stored _ _ _ _ _ r j v HC Hj) in Hst.
    apply (lcol_lower A n col Pf Qf par HF Lv j r v Hj Hst). }
  split; [eapply vec_filled; exact HD|].
  destruct HS as [L1 [L2 [L3 [L4 [L5 [L6 [L7 [R1 _]]]]]]]]. split.
  - intros j Hj. rewrite R1 by auto. f_equal.
    rewrite (get_rd 0 _ _ _ (proj2 H2 (j + 1) ltac:(lia))), (get_rd 0 _ _ _ (proj2 H2 j ltac:(lia))).
    rewrite Lpf_succ by lia. unfold lnzf. lia.
  - rewrite El. split; auto.
Qed.

(** C41: two runs on the same matrix with different work-array contents. *)
Theorem C41_workspace_irrelevant A (Ax : arr (car A)) Lp' Parent' Lnz' Flag' Pinv' w1 w2 w1' w2' r1 r2 :
  filled Ax nz -> div_ok A ->
  LDL_symbolic n Ap Ai Lp Parent Lnz Flag P Pinv = Ok (Lp', Parent', Lnz', Flag', Pinv') ->
  work_sizes A n (get 0 Lp' n) w1 -> work_sizes A n (get 0 Lp' n) w2 ->
  LDL_numeric A n Ap Ai Ax Lp' Parent' w1 P Pinv' = Ok (r1, w1') ->
  LDL_numeric A n Ap Ai Ax Lp' Parent' w2 P Pinv' = Ok (r2, w2') ->
  r1 = r2 /\
  (forall k, 0 <= k < get 0 Lp' n -> exists r v, rd (nLi A w1') k = Ok r /\ rd (nLi A w2') k = Ok r /\
     rd (nLx A w1') k = Ok v /\ rd (nLx A w2') k = Ok v) /\
  (forall k, 0 <= k < n -> exists d c, rd (nD A w1') k = Ok d /\ rd (nD A w2') k = Ok d /\
     rd (nLnz A w1') k = Ok c /\ rd (nLnz A w2') k = Ok c).
Proof.
  intros HAx Hdiv Hsym W1 W2 N1 N2.
  destruct (num_facts A Ax HAx Lp' Parent' Lnz' Flag' Pinv' Hsym Hdiv) as
    [Qf [par [C [R [HP [HF [H2 [_ [_ HW]]]]]]]]].
  destruct (HW w1 W1) as [x1 [E1 [C1 [D1 S1]]]]. rewrite N1 in E1. injection E1 as -> ->.
  destruct (HW w2 W2) as [x2 [E2 [C2 [D2 S2]]]]. rewrite N2 in E2. injection E2 as -> ->.
  split; [reflexivity|]. split.
  - intros k Hk. assert (El : get 0 Lp' n = start (lcF A n (column (f0 A) Ap Ai Ax) (elim_index P) Qf par) n).
    { unfold lcF. rewrite lcol_start. apply get_rd, H2. lia. }
    rewrite El in Hk. destruct (start_decompose _ n k Hn Hk) as [j [t [Hj [Ht ->]]]].
    destruct (nth_error (lcF A n (column (f0 A) Ap Ai Ax) (elim_index P) Qf par j) (Z.to_nat t)) as [[r v]|] eqn:E.
    2:{ apply nth_error_None in E. unfold zlen in Ht. lia. }
    exists r, v. replace t with (Z.of_nat (Z.to_nat t)) by lia.
    repeat split; solve [eapply csc_ir; eauto|eapply csc_pr; eauto].
  - intros k Hk. eexists _, _. split; [apply D1; auto|]. split; [apply D2; auto|].
    destruct S1 as [_ [_ [_ [_ [_ [_ [_ [Q1 _]]]]]]]]. destruct S2 as [_ [_ [_ [_ [_ [_ [_ [Q2 _]]]]]]]].
    split; [apply Q1; auto|apply Q2; auto].
Qed.
End Facts.

(** ** C07, C08: what the factor is, in exact arithmetic *)

Section Exact.
Variables (n : Z) (Ap Ai : arr Z) (Ax : arr R) (nz : Z) (P Pinv : option (arr Z)) (Lp Parent Lnz Flag : arr Z).
Variables (Lp' Parent' Lnz' Flag' : arr Z) (Pinv' : option (arr Z)) (w w' : numst RA) (r : Z).
Hypothesis Hn : 0 <= n.
Hypothesis Hmat : csc_arrays n n Ap Ai Ax nz.
Hypothesis Hord : usable_order n P Pinv.
Hypothesis HLp : zlen Lp = n + 1.
Hypothesis HPa : zlen Parent = n.
Hypothesis HLn : zlen Lnz = n.
Hypothesis HFl : zlen Flag = n.
Hypothesis Hsym : LDL_symbolic n Ap Ai Lp Parent Lnz Flag P Pinv = Ok (Lp', Parent', Lnz', Flag', Pinv').
Hypothesis Hw : work_sizes RA n (get 0 Lp' n) w.
Hypothesis Hnum : LDL_numeric RA n Ap Ai Ax Lp' Parent' w P Pinv' = Ok (r, w').
Notation L := (factor_entry Lp' (nLi RA w') (nLx RA w')).
Notation D := (get 0%R (nD RA w')).

(** L D L' is the permuted matrix (its part at or above the diagonal, mirrored) plus a diagonal E that is
    nonzero only where the exact pivot D - E is at most 1e-14 in magnitude, and there D is +-1e-7. *)
Theorem C07_factorisation : exists E : Z -> R,
  (forall i k, 0 <= i < n -> 0 <= k < n ->
    sumr (fun j => L i j * D j * L k j)%R (zr 0 n) =
    (upper_entry Ap Ai Ax P i k + (if i =? k then E k else 0))%R) /\
  (forall k, 0 <= k < n -> (Rabs (D k - E k) > 1 / 100000000000000)%R -> E k = 0%R) /\
  (forall k, 0 <= k < n -> (Rabs (D k - E k) <= 1 / 100000000000000)%R ->
     D k = (if Rle_dec (D k - E k) 0 then - (1 / 10000000) else 1 / 10000000)%R) /\
  (forall k, 0 <= k < n -> (Rabs (E k) <= 1 / 10000000 + 1 / 100000000000000)%R).
Proof.
  destruct (num_facts n Ap Ai nz P Pinv Lp Parent Lnz Flag Hn (ca_pattern _ _ _ _ _ _ Hmat) Hord HLp HPa HLn HFl
    RA Ax (ca_values _ _ _ _ _ _ Hmat) Lp' Parent' Lnz' Flag' Pinv' Hsym div_ok_R) as
    [Qf [par [C [R [HP [HF [H2 [_ [_ HW]]]]]]]]].
  destruct (HW w Hw) as [w2 [E2 [HC [HD HS]]]]. rewrite Hnum in E2. injection E2 as _ <-.
  set (col := column (f0 RA) Ap Ai Ax) in *. set (Pf := elim_index P) in *.
  pose proof (numF_spec RA n col Pf Qf par HF div_ok_R) as HN.
  set (y := fac_y RA (numF RA n col Pf Qf par n)) in *.
  set (Lv := fac_L RA (numF RA n col Pf Qf par n)) in *. set (Dv := fac_D RA (numF RA n col Pf Qf par n)) in *.
  assert (ED : forall k, 0 <= k < n -> get 0%R (nD RA w') k = Dv k).
  { intros k Hk. apply get_rd. apply HD. auto. }
  assert (EL : forall i j, 0 <= i < n -> 0 <= j < n -> L i j = LL n col Pf Qf par Lv i j).
  { intros i j Hi Hj. unfold factor_entry. destruct (Z.eqb_spec i j) as [->|Hne].
    - unfold LL. rewrite Z.eqb_refl. reflexivity.
    - rewrite <- (lc_ent n col Pf Qf par Lv j i) by auto. unfold mat_entry, ent.
      rewrite (Csc_column 0%R _ _ _ _ _ j HC Hj). reflexivity. }
  assert (EU : forall i k, 0 <= i <= k -> k < n -> Bmat col Pf Qf i k = mat_entry Ap Ai Ax (Pf i) (Pf k)).
  { intros i k Hi Hk. rewrite (Bmat_ent n col Pf Qf HP R i k) by lia. reflexivity. }
  exists (fun k => (Dv k - piv n col Pf Qf par y Lv k)%R). split; [|split; [|split]].
  - intros i k Hi Hk. destruct (Z.le_gt_cases i k) as [Hik|Hik].
    + rewrite (sumr_ext _ (fun j => LL n col Pf Qf par Lv i j * Dv j * LL n col Pf Qf par Lv k j)%R).
      2:{ intros j Hj. apply in_zr in Hj. rewrite (EL i j), (EL k j), ED by lia. reflexivity. }
      rewrite (LDL_full_upper n col Pf Qf par HF HP R y Lv Dv HN i k) by lia. unfold upper_entry.
      rewrite Z.min_l, Z.max_r by lia. rewrite EU by lia. reflexivity.
    + rewrite (sumr_ext _ (fun j => LL n col Pf Qf par Lv k j * Dv j * LL n col Pf Qf par Lv i j)%R).
      2:{ intros j Hj. apply in_zr in Hj. rewrite (EL i j), (EL k j), ED by lia. ring. }
      rewrite (LDL_full_upper n col Pf Qf par HF HP R y Lv Dv HN k i) by lia. unfold upper_entry.
      rewrite Z.min_r, Z.max_l by lia. rewrite EU by lia.
      destruct (Z.eqb_spec k i), (Z.eqb_spec i k); try lia. reflexivity.
  - intros k Hk H. rewrite ED in * by auto.
    replace (Dv k - (Dv k - piv n col Pf Qf par y Lv k))%R with (piv n col Pf Qf par y Lv k) in H by ring.
    rewrite (Dv_reg n col Pf Qf par y Lv Dv HN k Hk), reg_big by auto. ring.
  - intros k Hk H. rewrite !ED in * by auto.
    replace (Dv k - (Dv k - piv n col Pf Qf par y Lv k))%R with (piv n col Pf Qf par y Lv k) in * by ring.
    rewrite (Dv_reg n col Pf Qf par y Lv Dv HN k Hk). unfold reg.
    destruct (Rle_dec (Rabs (piv n col Pf Qf par y Lv k)) _); [reflexivity|contradiction].
  - intros k Hk. rewrite (Dv_reg n col Pf Qf par y Lv Dv HN k Hk). apply reg_close.
Qed.

(** C08 in exact arithmetic: pivots stay away from zero. *)
Theorem C08_pivots_exact k : 0 <= k < n ->
  D k <> 0%R /\ ((Rabs (D k) > 1 / 100000000000000)%R \/ D k = (1 / 10000000)%R \/ D k = (- (1 / 10000000))%R).
Proof.
  intros Hk. destruct C07_factorisation as [E [_ [H1 [H2 _]]]].
  assert (G : (Rabs (D k) > 1 / 100000000000000)%R \/ D k = (1 / 10000000)%R \/ D k = (- (1 / 10000000))%R).
  { destruct (Rle_dec (Rabs (D k - E k)) (1 / 100000000000000)) as [H|H].
    - right. rewrite (H2 k Hk H). destruct (Rle_dec _ 0); auto.
    - left. apply Rnot_le_gt in H. pose proof H as H'. rewrite (H1 k Hk H) in H'. now rewrite Rminus_0_r in H'. }
  split; [|exact G]. intros E0. rewrite E0, Rabs_R0 in G. lra.
Qed.

End Exact.

(** C08 in any arithmetic: every stored pivot has been through the regularisation ... *)
Theorem C08_pivots_regularised A n Ap Ai (Ax : arr (car A)) Lp' Parent' w P Pinv' r w' :
  0 <= n -> LDL_numeric A n Ap Ai Ax Lp' Parent' w P Pinv' = Ok (r, w') ->
  forall k, 0 <= k < n -> exists d, rd (nD A w') k = Ok (regularize A d).
Proof.
  intros Hn. revert r w'. enough (G : pw (LDL_numeric A n Ap Ai Ax Lp' Parent' w P Pinv') (fun r =>
    forall k, 0 <= k < n -> exists d, rd (nD A (snd r)) k = Ok (regularize A d))).
  { intros r w' H. exact (G (r, w') H). }
  unfold LDL_numeric. apply pw_bind.
  apply (pw_for (fun k t => forall i, 0 <= i < k -> exists d, rd (nD A t) i = Ok (regularize A d))).
  - intros; lia.
  - clear w. intros k w Hk Hw. unfold num_row. do 3 pskip. pskip. destruct x2 as [[[Y Pattern] Flag] top]. do 1 pskip.
    apply pw_bind, pw_wr. intros D1 _ _ R1. pskip. apply pw_bind.
    apply (pw_for_inv (fun st => let '(_, _, _, D, _) := st in forall j, 0 <= j < k -> rd D j = rd (nD A w) j)).
    + intros j Hj. rewrite R1. destruct (Z.eqb_spec j k); [lia|reflexivity].
    + intros t [[[[Lnz Li] Lx] D] Y'] _ HI. unfold num_elim. do 6 pskip. do 3 pskip. apply pw_bind, pw_wr. intros D2 _ _ R2.
      do 3 pskip. apply pw_ok. intros j Hj. rewrite R2. destruct (Z.eqb_spec j k); [lia|]. apply HI. auto.
    + intros [[[[Lnz Li] Lx] D] Y'] HI. pskip. apply pw_bind, pw_wr. intros D2 _ _ R2. apply pw_ok.
      intros i Hi. cbn [nD]. rewrite R2. destruct (Z.eqb_spec i k); [eauto|]. rewrite HI by lia. apply Hw. lia.
  - intros t Ht. apply pw_ok. cbn [snd]. intros k Hk. apply Ht. lia.
Qed.

(** ... and in binary64 no stored pivot is a zero (of either sign): it is a nonzero number, an infinity
    or NaN. *)
Theorem C08_pivots_binary64 n Ap Ai (Ax : arr b64) Lp' Parent' (w : numst FA) P Pinv' r w' :
  0 <= n -> LDL_numeric FA n Ap Ai Ax Lp' Parent' w P Pinv' = Ok (r, w') ->
  forall k, 0 <= k < n -> exists d, rd (nD FA w') k = Ok d /\ forall s, d <> B754_zero s.
Proof.
  intros Hn H k Hk. destruct (C08_pivots_regularised FA _ _ _ _ _ _ _ _ _ _ _ Hn H k Hk) as [d E].
  exists (regularize FA d). split; [exact E|]. clear. intros s.
  assert (Z1 : forall b : bool, fmul FA (if b then fopp FA (f1 FA) else f1 FA) (ldl_delta FA) <> B754_zero s).
  { intros b E. apply (f_equal (fun x : b64 => match x with B754_zero _ => true | _ => false end)) in E. revert E.
    assert (Z2 : match fmul FA (if b then fopp FA (f1 FA) else f1 FA) (ldl_delta FA) with
      | B754_zero _ => true | _ => false end = false) by (destruct b; vm_compute; reflexivity).
    rewrite Z2. discriminate. }
  unfold regularize. destruct (fle FA (fmul FA _ d) (ldl_eps FA)) eqn:E; [apply Z1|].
  intros ->. assert (Z2 : fle FA (fmul FA (if fle FA (B754_zero s) (f0 FA) then fopp FA (f1 FA) else f1 FA) (B754_zero s))
    (ldl_eps FA) = true) by (destruct s; vm_compute; reflexivity).
  rewrite Z2 in E. discriminate.
Qed.

(** ** C09: the linear solve *)

(** The calls ldlinitialsolve/kktsolve make (src/Auxilary.c:578-625): factor K, then solve K x = b. *)
Definition factor_and_solve A n Ap Ai (Ax : arr (car A)) Lp Parent Lnz Flag (p q : arr Z) (alloc : Z -> numst A)
  (X b : arr (car A)) : res (arr (car A)) :=
  '(Lp, Parent, Lnz, Flag, Pinv) <- LDL_symbolic n Ap Ai Lp Parent Lnz Flag (Some p) (Some q) ;;
  '(_, w) <- LDL_numeric A n Ap Ai Ax Lp Parent (alloc (get 0 Lp n)) (Some p) Pinv ;;
  X <- LDL_perm A n X b p ;;
  X <- LDL_lsolve A n X Lp (nLi A w) (nLx A w) ;;
  X <- LDL_dsolve A n X (nD A w) ;;
  X <- LDL_ltsolve A n X Lp (nLi A w) (nLx A w) ;;
  LDL_permt A n b X p.

Theorem C09_linear_solve n Ap Ai (Ax : arr R) nz Lp Parent Lnz Flag p q alloc X b :
  0 <= n -> csc_arrays n n Ap Ai Ax nz -> permutation_array p n -> zlen q = n ->
  zlen Lp = n + 1 -> zlen Parent = n -> zlen Lnz = n -> zlen Flag = n ->
  (forall lnz, work_sizes RA n lnz (alloc lnz)) -> zlen X = n -> zlen b = n -> filled b n ->
  (forall i j, 0 <= i < n -> 0 <= j < n -> mat_entry Ap Ai Ax i j = mat_entry Ap Ai Ax j i) ->
  exists x E, factor_and_solve RA n Ap Ai Ax Lp Parent Lnz Flag p q alloc X b = Ok x /\ filled x n /\ zlen x = n /\
    (forall a, 0 <= a < n ->
      (sumr (fun c => mat_entry Ap Ai Ax a c * get 0 x c) (zr 0 n) + E a * get 0 x a)%R = get 0%R b a) /\
    (forall a, 0 <= a < n -> (Rabs (E a) <= 1 / 10000000 + 1 / 100000000000000)%R) /\
    (* the perturbation vanishes unless some stored pivot is +-1e-7 *)
    (forall Lp' Parent' Lnz' Flag' Pinv' r w',
      LDL_symbolic n Ap Ai Lp Parent Lnz Flag (Some p) (Some q) = Ok (Lp', Parent', Lnz', Flag', Pinv') ->
      LDL_numeric RA n Ap Ai Ax Lp' Parent' (alloc (get 0 Lp' n)) (Some p) Pinv' = Ok (r, w') ->
      forall k, 0 <= k < n -> Rabs (get 0%R (nD RA w') k) <> (1 / 10000000)%R -> E (get 0 p k) = 0%R).
Proof.
  intros Hn Hmat Hp Hq L1 L2 L3 L4 HAl LX Lb Hb Hs.
  assert (Hord : usable_order n (Some p) (Some q)) by (split; eauto).
  destruct (C06_symbolic n Ap Ai nz (Some p) (Some q) Lp Parent Lnz Flag Hn (ca_pattern _ _ _ _ _ _ Hmat) Hord L1 L2 L3 L4)
    as [Lp' [Pa' [Ln' [Fl' [Pi' [Es _]]]]]].
  destruct (num_facts n Ap Ai nz (Some p) (Some q) Lp Parent Lnz Flag Hn (ca_pattern _ _ _ _ _ _ Hmat) Hord L1 L2 L3 L4
    RA Ax (ca_values _ _ _ _ _ _ Hmat) Lp' Pa' Ln' Fl' Pi' Es div_ok_R) as
    [Qf [par [C [R [HP [HF [H2 [_ [HgP HW]]]]]]]]].
  destruct (HW _ (HAl (get 0 Lp' n))) as [w [En [HC [HD HS]]]].
  set (col := column (f0 RA) Ap Ai Ax) in *. set (Pf := elim_index (Some p)) in *.
  pose proof (numF_spec RA n col Pf Qf par HF div_ok_R) as HN.
  set (y := fac_y RA (numF RA n col Pf Qf par n)) in *.
  set (Lv := fac_L RA (numF RA n col Pf Qf par n)) in *. set (Dv := fac_D RA (numF RA n col Pf Qf par n)) in *.
  assert (HvP : vec p n Pf) by (intros k Hk; apply (HgP k Hk)).
  assert (HL : lower RA n (lcF RA n col Pf Qf par)).
  { intros j r v Hj Hin. eapply (proj1 (lcol_lower RA n col Pf Qf par HF _ j r v Hj Hin)). }
  assert (Hrun : wp (factor_and_solve RA n Ap Ai Ax Lp Parent Lnz Flag p q alloc X b)
    (fun x => is_vec x n (fun a => LdlR.solveF n col Pf Qf par Lv Dv (fun k => get 0%R b (Pf k)) (Qf a)))).
  { unfold factor_and_solve. wb. eapply wp_eq; [exact Es|]. wb. eapply wp_eq; [exact En|].
    wb. eapply wp_mono.
    { eapply LDL_perm_ok; [exact Hn|exact LX|apply (filled_vec 0%R); exact Hb|exact HvP|apply (pf_range _ _ _ HP)]. }
    intros d1 H1. wb. eapply wp_mono.
    { eapply (LDL_lsolve_ok RA); [exact Hn|exact HC|exact HL|exact H1]. }
    intros d2 Hd2. wb. eapply wp_mono.
    { eapply (LDL_dsolve_ok RA); [exact Hn|exact Hd2|exact HD|]. intros j Hj. eexists. apply RA_div.
      apply (Dv_nonzero n col Pf Qf par y Lv Dv HN j Hj). }
    intros d3 H3. wb. eapply wp_mono.
    { eapply (LDL_ltsolve_ok RA); [exact Hn|exact HC|exact HL|exact H3]. }
    intros d4 H4. 
    eapply (LDL_permt_ok RA n b d4 p Pf Qf); [exact Hn|exact Lb|apply is_vec_vec; exact H4|exact HvP|exact HP]. }
  apply wp_exists in Hrun. destruct Hrun as [x [Ex [Lx Hx]]].
  exists x, (Epert n col Pf Qf par y Lv Dv). split; [exact Ex|]. split; [intros i Hi; rewrite Hx by auto; eauto|].
  split; [exact Lx|]. split; [|split].
  - intros a Ha.
    pose proof (perm_solve_R n col Pf Qf par HF HP R y Lv Dv HN Hs (get 0%R b) a Ha) as G. cbv zeta in G.
    rewrite (get_rd 0%R x a _ (Hx a Ha)). rewrite <- G. f_equal. apply sumr_ext. intros c Hc. apply in_zr in Hc.
    rewrite (get_rd 0%R x c _ (Hx c Hc)). reflexivity.
  - intros a Ha. apply (Epert_small n col Pf Qf par HP y Lv Dv HN a Ha).
  - intros Lp2 Pa2 Ln2 Fl2 Pi2 r w' Es2 En2 k Hk Hne. rewrite Es in Es2. injection Es2 as <- <- <- <- <-.
    rewrite En in En2. injection En2 as <- <-. rewrite (get_rd 0%R _ _ _ (HD k Hk)) in Hne.
    assert (Ek : Qf (get 0 p k) = k) by (apply (qf_pf _ _ _ HP); auto).
    apply (Epert_zero n col Pf Qf par HP y Lv Dv HN); [apply (pf_range _ _ _ HP); auto|]. rewrite Ek.
    rewrite (Dv_reg n col Pf Qf par y Lv Dv HN k Hk) in Hne. unfold reg in Hne.
    destruct (Rle_dec (Rabs (piv n col Pf Qf par y Lv k)) _) as [H|H]; [|lra]. exfalso. apply Hne.
    destruct (Rle_dec (piv n col Pf Qf par y Lv k) 0); [rewrite Rabs_Ropp|]; apply Rabs_pos_eq; lra.
Qed.

(** The system solved for a user's problem: K is the KKT matrix that setup assembled. *)
Theorem C09_kkt_solve amd u q Lp Parent Lnz Flag p pinv alloc X b :
  valid_user amd u -> covered u -> symmetric (user_qp u) -> setup RA amd u = Ok q ->
  permutation_array p (u_N u) -> zlen pinv = u_N u ->
  zlen Lp = u_N u + 1 -> zlen Parent = u_N u -> zlen Lnz = u_N u -> zlen Flag = u_N u ->
  (forall lnz, work_sizes RA (u_N u) lnz (alloc lnz)) -> zlen X = u_N u -> zlen b = u_N u -> filled b (u_N u) ->
  exists x E, factor_and_solve RA (u_N u) (jc (k_mat (q_kkt q))) (ir (k_mat (q_kkt q))) (pr (k_mat (q_kkt q)))
      Lp Parent Lnz Flag p pinv alloc X b = Ok x /\
    (forall a, 0 <= a < u_N u ->
      (sumr (fun c => kkt_entry (user_qp u) a c * get 0 x c) (zr 0 (u_N u)) + E a * get 0 x a)%R = get 0%R b a) /\
    (forall a, 0 <= a < u_N u -> (Rabs (E a) <= 1 / 10000000 + 1 / 100000000000000)%R).
Proof.
  intros HV Hc Hs HS Hp Lq L1 L2 L3 L4 HAl LX Lb Hb.
  destruct (C04_kkt_assembly RA amd u q div_ok_R HV HS Hc) as [_ [_ [HK _]]].
  pose proof (C04_kkt_entries amd u q HV Hc HS) as HE.
  assert (HN : 0 <= u_N u).
  { pose proof (vu_n _ _ HV). pose proof (vu_m _ _ HV). pose proof (valid_pe RA amd u HV). unfold u_N. cbn [car RA] in *. lia. }
  assert (Hsym : forall i j, 0 <= i < u_N u -> 0 <= j < u_N u ->
    mat_entry (jc (k_mat (q_kkt q))) (ir (k_mat (q_kkt q))) (pr (k_mat (q_kkt q))) i j =
    mat_entry (jc (k_mat (q_kkt q))) (ir (k_mat (q_kkt q))) (pr (k_mat (q_kkt q))) j i).
  { intros i j Hi Hj. pose proof (HE i j Hi Hj) as E1. pose proof (HE j i Hj Hi) as E2. cbn [car RA] in *.
    rewrite E1, E2. unfold kkt_entry. assert (En : dn (user_qp u) = u_n u) by (unfold user_qp; destruct (u_eqs u) as [[[[? ?] ?] ?]|]; reflexivity).
    assert (Ep : dp (user_qp u) = u_pe u) by (unfold user_qp, u_pe; destruct (u_eqs u) as [[[[? ?] ?] ?]|]; reflexivity). pose proof (valid_pe RA amd u HV) as Hpe. cbn [car RA] in *.
    destruct (Z.ltb_spec j (dn (user_qp u))), (Z.ltb_spec i (dn (user_qp u))).
    - apply Hs; lia.
    - destruct (Z.ltb_spec i (dn (user_qp u) + dp (user_qp u))); reflexivity.
    - destruct (Z.ltb_spec j (dn (user_qp u) + dp (user_qp u))); reflexivity.
    - destruct (Z.eqb_spec i j), (Z.eqb_spec j i); try lia;
        destruct (Z.ltb_spec j (dn (user_qp u) + dp (user_qp u))), (Z.ltb_spec i (dn (user_qp u) + dp (user_qp u))); try lia; reflexivity. }
  destruct (C09_linear_solve (u_N u) _ _ _ _ Lp Parent Lnz Flag p pinv alloc X b HN HK Hp Lq L1 L2 L3 L4 HAl LX Lb Hb Hsym)
    as [x [E [E1 [_ [_ [E2 [E3 _]]]]]]].
  exists x, E. split; [exact E1|]. split; [|exact E3]. intros a Ha. specialize (E2 a Ha). cbn [car RA] in *. rewrite <- E2.
  f_equal. apply sumr_ext. intros c Hc'. apply in_zr in Hc'. pose proof (HE a c Ha Hc') as E4. cbn [car RA] in *. now rewrite E4.
Qed.

(** ** C31, C32: the validity checks *)

Theorem C31_valid_perm n P Flag :
  (forall p, P = Some p -> filled p n) -> (forall f, Flag = Some f -> n <= zlen f) ->
  exists r, LDL_valid_perm n P Flag = Ok r /\
    ((r = 1 /\ Flag <> None /\ 0 <= n /\ (forall p, P = Some p -> permutation_array p n)) \/
     (r = 0 /\ (Flag = None \/ n < 0 \/ exists p, P = Some p /\ ~ permutation_array p n))).
Proof.
  intros HP HFl. unfold LDL_valid_perm. destruct Flag as [f|]; [|exists 0; auto 6].
  destruct (Z.ltb_spec n 0) as [H|Hn]; [exists 0; auto 6|].
  destruct P as [p|]; [|exists 1; split; auto; left; repeat split; try congruence; auto].
  specialize (HP p eq_refl). specialize (HFl f eq_refl). apply wp_exists.
  wb. eapply (wp_for_le (fun k f' => zlen f' = zlen f /\ forall j, 0 <= j < k -> rd f' j = Ok 0)); auto.
  { split; auto. intros; lia. }
  { intros k f' Hk [Lf Rf]. apply wp_wr; [lia|]. intros a' L R. split; [lia|]. intros j Hj. rewrite R.
    destruct (Z.eqb_spec j k); auto. apply Rf. lia. }
  intros f0' [Lf0 Rf0]. wb.
  eapply (wp_for_le (fun k st => let '(f', valid) := st in zlen f' = zlen f /\
    if valid : bool then
      (forall i, 0 <= i < k -> exists a, rd p i = Ok a /\ 0 <= a < n) /\
      (forall i j a, 0 <= i < k -> 0 <= j < k -> rd p i = Ok a -> rd p j = Ok a -> i = j) /\
      (forall a, 0 <= a < n -> exists v, rd f' a = Ok v /\ (v = 0 -> forall i, 0 <= i < k -> rd p i <> Ok a) /\
         (v <> 0 -> exists i, 0 <= i < k /\ rd p i = Ok a))
    else ~ permutation_array p n)); auto.
  { split; auto. split; [intros; lia|]. split; [intros; lia|]. intros a Ha. exists 0. rewrite Rf0 by auto.
    split; [reflexivity|]. split; intros; [lia|congruence]. }
  { intros k [f' valid] Hk [Lf' HI]. destruct valid; [|wok; auto].
    destruct HI as [I1 [I2 I3]]. destruct (HP k Hk) as [a Ea]. wb. eapply wp_rd; [exact Ea|].
    destruct (Z.ltb_spec a 0); [|destruct (Z.leb_spec n a)]; cbn [orb].
    - wok. split; auto. intros [Q _]. destruct (Q k Hk) as [a' [E' Ha']]. rewrite Ea in E'. injection E' as <-. lia.
    - wok. split; auto. intros [Q _]. destruct (Q k Hk) as [a' [E' Ha']]. rewrite Ea in E'. injection E' as <-. lia.
    - destruct (I3 a) as [v [Ev [V0 V1]]]; [lia|]. wb. eapply wp_rd; [exact Ev|].
      destruct (Z.eqb_spec v 0) as [->|Hv]; cbn [negb].
      + wb. apply wp_wr; [lia|]. intros f2 L2 R2. wok. split; [lia|]. split; [|split].
        * intros i Hi. destruct (Z.eq_dec i k) as [->|]; [exists a; split; auto; lia|apply I1; lia].
        * intros i j b Hi Hj Hib Hjb. destruct (Z.eq_dec i k) as [->|], (Z.eq_dec j k) as [->|]; auto.
          -- rewrite Ea in Hib. injection Hib as <-. exfalso. apply (V0 eq_refl j); auto; lia.
          -- rewrite Ea in Hjb. injection Hjb as <-. exfalso. apply (V0 eq_refl i); auto; lia.
          -- apply (I2 i j b); auto; lia.
        * intros b Hb. rewrite R2. destruct (Z.eqb_spec b a) as [->|Hne].
          -- exists 1. split; auto. split; [lia|]. intros _. exists k. split; auto. lia.
          -- destruct (I3 b Hb) as [u [Eu [U0 U1]]]. exists u. split; auto. split.
             ++ intros Hu i Hi. destruct (Z.eq_dec i k) as [->|]; [rewrite Ea; congruence|apply U0; auto; lia].
             ++ intros Hu. destruct (U1 Hu) as [i [Hi Ei]]. exists i. split; auto. lia.
      + wok. split; auto. intros [_ Q]. destruct (V1 Hv) as [i [Hi Ei]]. assert (i = k) by (apply (Q i k a); auto; lia). lia. }
  intros [f' valid] [_ HI]. wok. destruct valid.
  - left. split; auto. split; [congruence|]. split; auto. intros p' E. injection E as <-. destruct HI as [I1 [I2 _]].
    split; auto.
  - right. split; auto. right. right. eauto.
Qed.

Theorem C32_valid_matrix n Ap Ai :
  (0 <= n -> filled Ap (n + 1)) -> (0 <= n -> filled Ai (get 0 Ap n)) ->
  exists r, LDL_valid_matrix n (Some Ap) (Some Ai) = Ok r /\
    ((r = 1 /\ 0 <= n /\ csc_pattern n n Ap Ai (get 0 Ap n)) \/
     (r = 0 /\ (n < 0 \/ ~ csc_pattern n n Ap Ai (get 0 Ap n)))).
Proof.
  intros HAp HAi. unfold LDL_valid_matrix. destruct (Z.ltb_spec n 0) as [H|Hn]; [exists 0; auto 6|].
  specialize (HAp Hn). specialize (HAi Hn). apply wp_exists.
  destruct (HAp 0 ltac:(lia)) as [a0 E0]. wb. eapply wp_rd; [exact E0|].
  destruct (Z.eqb_spec a0 0) as [->|Hne]; cbn [negb].
  2:{ wok. right. split; auto. right. intros [C _ _ _]. congruence. }
  wb. eapply (wp_for_le (fun k (ok : bool) => if ok then
    (forall j, 0 <= j < k -> exists a b, rd Ap j = Ok a /\ rd Ap (j + 1) = Ok b /\ a <= b)
    else ~ csc_pattern n n Ap Ai (get 0 Ap n))); auto.
  { intros; lia. }
  { intros j ok Hj HI. destruct ok; [|wok; auto].
    destruct (HAp j ltac:(lia)) as [a Ea], (HAp (j + 1) ltac:(lia)) as [b Eb].
    wb. eapply wp_rd; [exact Ea|]. wb. eapply wp_rd; [exact Eb|]. wok. destruct (Z.ltb_spec b a); cbn [negb].
    - intros [_ M _ _]. destruct (M j Hj) as [a' [b' [E1 [E2 Hab]]]]. rewrite Ea in E1. rewrite Eb in E2.
      injection E1 as <-. injection E2 as <-. lia.
    - intros i Hi. destruct (Z.eq_dec i j) as [->|]; [eauto|apply HI; lia]. }
  intros ok HI. destruct ok; [|wok; right; auto].
  destruct (HAp n ltac:(lia)) as [nz En]. rewrite (get_rd 0 _ _ _ En) in *. wb. eapply wp_rd; [exact En|].
  assert (Hnz : 0 <= nz).
  { assert (G : forall j, 0 <= j -> j <= n -> exists v, rd Ap j = Ok v /\ 0 <= v).
    { apply (zr_ind (fun j => j <= n -> exists v, rd Ap j = Ok v /\ 0 <= v)).
      - intros _. exists 0. split; auto. lia.
      - intros k Hk IH Hkn. destruct (IH ltac:(lia)) as [v [Ev Hv]]. destruct (HI k ltac:(lia)) as [a [b [E1 [E2 Hab]]]].
        rewrite Ev in E1. injection E1 as <-. exists b. split; auto. lia. }
    destruct (G n ltac:(lia) ltac:(lia)) as [v [Ev Hv]]. rewrite En in Ev. injection Ev as <-. exact Hv. }
  wb. eapply (wp_for_le (fun k (ok : bool) => if ok then
    (forall t, 0 <= t < k -> exists r, rd Ai t = Ok r /\ 0 <= r < n) else ~ csc_pattern n n Ap Ai nz)); auto.
  { intros; lia. }
  { intros t ok Ht HT. destruct ok; [|wok; auto]. destruct (HAi t Ht) as [i Ei]. wb. eapply wp_rd; [exact Ei|]. wok.
    destruct (Z.ltb_spec i 0); [|destruct (Z.leb_spec n i)]; cbn [orb negb].
    - intros [_ _ _ Q]. destruct (Q t Ht) as [i' [E' Hi']]. rewrite Ei in E'. injection E' as <-. lia.
    - intros [_ _ _ Q]. destruct (Q t Ht) as [i' [E' Hi']]. rewrite Ei in E'. injection E' as <-. lia.
    - intros u Hu. destruct (Z.eq_dec u t) as [->|]; [exists i; split; auto; lia|apply HT; lia]. }
  intros ok HT. wok. destruct ok; [left|right; auto]. split; auto. split; auto. split; auto.
Qed.

(** ** Cases *)

(** K = [2 1; 1 0] (the last row has an explicit zero pivot), eliminated in the order 1, 0; work arrays
    partly never written. *)
Definition k22_p : arr Z := zs [0; 2; 4].
Definition k22_i : arr Z := zs [0; 1; 0; 1].
Definition k22_x (A : Arith) : arr (car A) := fs A [2; 1; 1; 0].
Definition k22_w (A : Arith) (lnz : Z) : numst A :=
  mkNum A (malloc _ 2) (malloc _ (Z.max 0 lnz)) (malloc _ (Z.max 0 lnz)) (malloc _ 2) (malloc _ 2) (malloc _ 2) (zs [7; -3]).

Lemma k22_mat A : csc_arrays 2 2 k22_p k22_i (k22_x A) 4.
Proof.
  constructor; [constructor; [reflexivity| |reflexivity|]|].
  - intros j Hj. enum j; do 2 eexists; (split; [reflexivity|split; [reflexivity|lia]]).
  - intros k Hk. enum k; eexists; (split; [reflexivity|lia]).
  - intros k Hk. enum k; eexists; reflexivity.
Qed.
Lemma k22_perm : permutation_array (zs [1; 0]) 2.
Proof. perm_concrete. Qed.
Lemma k22_work A lnz : work_sizes A 2 lnz (k22_w A lnz).
Proof. split; unfold k22_w; cbn [nLnz nLi nLx nD nY nPattern nFlag]; rewrite ?zlen_malloc; try reflexivity; lia. Qed.

(** The hypotheses of C06-C09 and C41 hold; both orders of elimination. *)
Example C06_C07_C41_case : exists Lp' Parent' Lnz' Flag' Pinv',
  LDL_symbolic 2 k22_p k22_i (malloc _ 3) (malloc _ 2) (malloc _ 2) (malloc _ 2) (Some (zs [1; 0])) (Some (malloc _ 2)) =
    Ok (Lp', Parent', Lnz', Flag', Pinv') /\ get 0 Lp' 2 = 1 /\
  exists w', LDL_numeric RA 2 k22_p k22_i (k22_x RA) Lp' Parent' (k22_w RA (get 0 Lp' 2)) (Some (zs [1; 0])) Pinv' = Ok (2, w').
Proof.
  eexists _, _, _, _, _. split; [reflexivity|]. split; [reflexivity|].
  pose proof (C06_numeric 2 k22_p k22_i 4 (Some (zs [1; 0])) (Some (malloc _ 2)) (malloc _ 3) (malloc _ 2) (malloc _ 2) (malloc _ 2)
    ltac:(lia) (ca_pattern _ _ _ _ _ _ (k22_mat RA)) (conj k22_perm (ex_intro _ _ (conj eq_refl eq_refl)))
    eq_refl eq_refl eq_refl eq_refl RA (k22_x RA) _ _ _ _ _ (k22_w RA 1) (ca_values _ _ _ _ _ _ (k22_mat RA)) div_ok_R eq_refl
    (k22_work RA 1)) as [w' [H _]].
  exists w'. exact H.
Qed.

Example C09_case b0 b1 : exists x E,
  factor_and_solve RA 2 k22_p k22_i (k22_x RA) (malloc _ 3) (malloc _ 2) (malloc _ 2) (malloc _ 2) (zs [1; 0]) (malloc _ 2)
    (k22_w RA) (malloc _ 2) [Some b0; Some b1] = Ok x /\
  (2 * get 0 x 0 + get 0 x 1 + E 0%Z * get 0 x 0 = b0)%R /\ (get 0 x 0 + E 1%Z * get 0 x 1 = b1)%R.
Proof.
  destruct (C09_linear_solve 2 k22_p k22_i (k22_x RA) 4 (malloc _ 3) (malloc _ 2) (malloc _ 2) (malloc _ 2) (zs [1; 0]) (malloc _ 2)
    (k22_w RA) (malloc _ 2) [Some b0; Some b1]) as [x [E [H1 [_ [_ [H2 _]]]]]]; try reflexivity; try lia.
  - apply (k22_mat RA).
  - apply k22_perm.
  - intros lnz. apply k22_work.
  - intros i Hi. enum i; eexists; reflexivity.
  - assert (E01 : mat_entry k22_p k22_i (k22_x RA) 0 1 = (1 + (0 + 0))%R) by reflexivity.
    assert (E10 : mat_entry k22_p k22_i (k22_x RA) 1 0 = (0 + (1 + 0))%R) by reflexivity.
    intros i j Hi Hj. enum i; enum j; try reflexivity; rewrite E01, E10; lra.
  - exists x, E. split; [exact H1|]. pose proof (H2 0 ltac:(lia)) as G0. pose proof (H2 1 ltac:(lia)) as G1.
    change (zr 0 2) with [0; 1] in G0, G1. cbn [sumr] in G0, G1.
    change (mat_entry k22_p k22_i (k22_x RA) 0 0) with (2 + (0 + 0))%R in G0.
    change (mat_entry k22_p k22_i (k22_x RA) 0 1) with (1 + (0 + 0))%R in G0.
    change (mat_entry k22_p k22_i (k22_x RA) 1 0) with (0 + (1 + 0))%R in G1.
    change (mat_entry k22_p k22_i (k22_x RA) 1 1) with (0 + (0 + 0))%R in G1.
    change (get 0%R [Some b0; Some b1] 0) with b0 in G0. change (get 0%R [Some b0; Some b1] 1) with b1 in G1.
    cbn [car RA] in *. split; lra.
Qed.

(** In binary64 the zero pivot is replaced: D = {-1e-7, 2 + 1e7}. *)
Example C08_case : exists w',
  LDL_numeric FA 2 k22_p k22_i (k22_x FA) (zs [0; 1; 1]) (zs [1; -1]) (k22_w FA 1) (Some (zs [1; 0])) (Some (zs [1; 0])) = Ok (2, w') /\
  match rd (nD FA w') 0 with Ok d => feqb FA d (fopp FA (fdec FA 1 10000000)) | _ => false end = true.
Proof. eexists. split; [reflexivity|vm_compute; reflexivity]. Qed.

Example C31_case : LDL_valid_perm 3 (Some (zs [2; 0; 1])) (Some (malloc _ 3)) = Ok 1 /\
  LDL_valid_perm 3 (Some (zs [2; 0; 2])) (Some (malloc _ 3)) = Ok 0.
Proof. split; reflexivity. Qed.

Example C32_case : LDL_valid_matrix 2 (Some k22_p) (Some k22_i) = Ok 1 /\
  LDL_valid_matrix 2 (Some (zs [0; 2; 1])) (Some k22_i) = Ok 0 /\ LDL_valid_matrix 1 (Some (zs [0; 1])) (Some (zs [1])) = Ok 0.
Proof. repeat split; reflexivity. Qed.

Print Assumptions C06_symbolic.
Print Assumptions C06_numeric.
Print Assumptions C07_factorisation.
Print Assumptions C08_pivots_exact.
Print Assumptions C08_pivots_regularised.
Print Assumptions C08_pivots_binary64.
Print Assumptions C09_linear_solve.
Print Assumptions C09_kkt_solve.
Print Assumptions C31_valid_perm.
Print Assumptions C32_valid_matrix.
Print Assumptions C41_workspace_irrelevant.
