(** From the caller's arrays to the column functions used in the proofs, and back. *)
From Coq Require Import ZArith Reals List Lia Lra Bool.
From Verif Require Import Res Arith Lists MSparse Csc SemVec Flat MLdl LdlSym MSolver Iter Setup Spec.
Import ListNotations.
Open Scope Z_scope.

Lemma get_rd {T} d (a : arr T) i v : rd a i = Ok v -> get d a i = v.
Proof. intros E. unfold get. rewrite E. reflexivity. Qed.

Lemma filled_vec {T} d (a : arr T) n : filled a n -> vec a n (get d a).
Proof. intros H i Hi. destruct (H i Hi) as [v E]. rewrite E. f_equal. symmetry. apply get_rd. auto. Qed.

Lemma vec_filled {T} (a : arr T) n f : vec a n f -> filled a n.
Proof. intros H i Hi. exists (f i). auto. Qed.

Lemma vec_get {T} d (a : arr T) n f i : vec a n f -> 0 <= i < n -> get d a i = f i.
Proof. intros H Hi. apply get_rd. auto. Qed.

Section Csc.
Context {F : Type} (d : F).

Lemma pattern_jc m n Jc Ir nz j : csc_pattern m n Jc Ir nz -> 0 <= n -> 0 <= j <= n -> rd Jc j = Ok (get 0 Jc j).
Proof.
  intros H Hn Hj. destruct (Z.eq_dec j n) as [->|].
  - rewrite (cp_last _ _ _ _ _ H). f_equal. symmetry. apply get_rd. apply (cp_last _ _ _ _ _ H).
  - destruct (cp_mono _ _ _ _ _ H j ltac:(lia)) as [a [b [E1 _]]]. rewrite E1. f_equal. symmetry. apply get_rd. auto.
Qed.

Lemma csc_link m n Jc Ir (Pr : arr F) nz : 0 <= n -> csc_arrays m n Jc Ir Pr nz ->
  Csc Jc Ir Pr n (column d Jc Ir Pr) /\ rows_in m n (column d Jc Ir Pr) /\ start (column d Jc Ir Pr) n = nz.
Proof.
  intros Hn [HP HV].
  assert (E0 : get 0 Jc 0 = 0) by (apply get_rd, (cp_first _ _ _ _ _ HP)).
  assert (En : get 0 Jc n = nz) by (apply get_rd, (cp_last _ _ _ _ _ HP)).
  assert (Hm : forall j, 0 <= j < n -> get 0 Jc j <= get 0 Jc (j + 1)).
  { intros j Hj. destruct (cp_mono _ _ _ _ _ HP j Hj) as [a [b [E1 [E2 L]]]].
    rewrite (get_rd 0 _ _ _ E1), (get_rd 0 _ _ _ E2). auto. }
  assert (HR : forall t, 0 <= t < get 0 Jc n -> 0 <= get 0 Ir t < m).
  { intros t Ht. rewrite En in Ht. destruct (cp_rows _ _ _ _ _ HP t Ht) as [r [E L]]. rewrite (get_rd 0 _ _ _ E). auto. }
  destruct (raw_Csc Jc Ir Pr m n (get 0 Jc) (get 0 Ir) (get d Pr)) as [H1 H2]; auto.
  - intros j Hj. apply (pattern_jc m n _ Ir nz); auto. lia.
  - intros t Ht. rewrite En in Ht. destruct (cp_rows _ _ _ _ _ HP t Ht) as [r [E L]].
    rewrite E. f_equal. symmetry. apply get_rd. auto.
  - rewrite En. apply filled_vec. auto.
  - split; auto. split; auto. rewrite <- En. apply (raw_col_start _ _ _ n); auto. lia.
Qed.

Lemma start_column m n Jc Ir (Pr : arr F) nz j : 0 <= n -> csc_arrays m n Jc Ir Pr nz -> 0 <= j <= n ->
  start (column d Jc Ir Pr) j = get 0 Jc j.
Proof.
  intros Hn H Hj. destruct (csc_link _ _ _ _ _ _ Hn H) as [C _].
  pose proof (csc_jc _ _ _ _ _ C j Hj) as E. symmetry. apply get_rd. auto.
Qed.

(** Any arrays that hold columns hold exactly these columns. *)
Lemma Csc_column Jc Ir (Pr : arr F) n col j : Csc Jc Ir Pr n col -> 0 <= j < n -> column d Jc Ir Pr j = col j.
Proof.
  intros C Hj. unfold column.
  rewrite (get_rd 0 _ _ _ (csc_jc _ _ _ _ _ C j ltac:(lia))), (get_rd 0 _ _ _ (csc_jc _ _ _ _ _ C (j + 1) ltac:(lia))).
  rewrite start_succ by lia.
  apply nth_error_ext_eq. intros t. unfold zr. rewrite map_map, nth_error_map.
  replace (start col j + zlen (col j) - start col j) with (zlen (col j)) by lia. unfold zlen. rewrite Nat2Z.id.
  destruct (nth_error (col j) t) as [[r v]|] eqn:E.
  - assert (Ht : (t < length (col j))%nat) by (apply nth_error_Some; congruence).
    rewrite (nth_error_nth' _ O) by (rewrite seq_length; auto). rewrite seq_nth by auto. cbn [option_map Nat.add].
    rewrite (get_rd 0 _ _ _ (csc_ir _ _ _ _ _ C j t r v Hj E)), (get_rd d _ _ _ (csc_pr _ _ _ _ _ C j t r v Hj E)).
    reflexivity.
  - apply nth_error_None in E.
    assert (E2 : nth_error (seq 0 (length (col j))) t = None) by (apply nth_error_None; rewrite seq_length; lia).
    rewrite E2. reflexivity.
Qed.

Lemma Csc_stored Jc Ir (Pr : arr F) n col i j v : Csc Jc Ir Pr n col -> 0 <= j < n ->
  stored Jc Ir Pr i j v <-> In (i, v) (col j).
Proof.
  intros C Hj. split.
  - intros [a [b [k [E1 [E2 [Hk [E3 E4]]]]]]].
    rewrite (csc_jc _ _ _ _ _ C j ltac:(lia)) in E1. rewrite (csc_jc _ _ _ _ _ C (j + 1) ltac:(lia)) in E2.
    inversion E1; inversion E2; subst a b. rewrite start_succ in Hk by lia.
    assert (Hl : (Z.to_nat (k - start col j) < length (col j))%nat) by (unfold zlen in Hk; lia).
    destruct (nth_error (col j) (Z.to_nat (k - start col j))) as [[r w]|] eqn:E; [|apply nth_error_None in E; lia].
    pose proof (csc_ir _ _ _ _ _ C j _ r w Hj E) as G1. pose proof (csc_pr _ _ _ _ _ C j _ r w Hj E) as G2.
    replace (start col j + Z.of_nat (Z.to_nat (k - start col j))) with k in * by lia.
    rewrite G1 in E3. rewrite G2 in E4. inversion E3; inversion E4; subst. eapply nth_error_In; eauto.
  - intros Hin. apply In_nth_error in Hin. destruct Hin as [t E].
    assert (Ht : (t < length (col j))%nat) by (apply nth_error_Some; congruence).
    exists (start col j), (start col (j + 1)), (start col j + Z.of_nat t).
    split; [apply (csc_jc _ _ _ _ _ C); lia|]. split; [apply (csc_jc _ _ _ _ _ C); lia|].
    split; [rewrite start_succ by lia; unfold zlen; lia|].
    split; [apply (csc_ir _ _ _ _ _ C j t i v); auto|apply (csc_pr _ _ _ _ _ C j t i v); auto].
Qed.

Lemma Csc_arrays Jc Ir (Pr : arr F) m n col : 0 <= n -> Csc Jc Ir Pr n col -> rows_in m n col ->
  csc_arrays m n Jc Ir Pr (start col n).
Proof.
  intros Hn C R.
  assert (HE : forall k, 0 <= k < start col n -> exists j t r v, 0 <= j < n /\ nth_error (col j) t = Some (r, v) /\
             k = start col j + Z.of_nat t).
  { intros k Hk. destruct (start_decompose col n k Hn Hk) as [j [t [Hj [Ht ->]]]].
    destruct (nth_error (col j) (Z.to_nat t)) as [[r v]|] eqn:E.
    - exists j, (Z.to_nat t), r, v. split; auto. split; auto. lia.
    - apply nth_error_None in E. unfold zlen in Ht. lia. }
  split; [split|].
  - rewrite (csc_jc _ _ _ _ _ C 0) by lia. reflexivity.
  - intros j Hj. exists (start col j), (start col (j + 1)).
    split; [apply (csc_jc _ _ _ _ _ C); lia|]. split; [apply (csc_jc _ _ _ _ _ C); lia|]. apply start_mono. lia.
  - apply (csc_jc _ _ _ _ _ C). lia.
  - intros k Hk. destruct (HE k Hk) as [j [t [r [v [Hj [E ->]]]]]]. exists r.
    split; [apply (csc_ir _ _ _ _ _ C j t r v); auto|]. apply (R j r v Hj). eapply nth_error_In; eauto.
  - intros k Hk. destruct (HE k Hk) as [j [t [r [v [Hj [E ->]]]]]]. exists v.
    apply (csc_pr _ _ _ _ _ C j t r v); auto.
Qed.

Lemma stored_some m n Jc Ir (Pr : arr F) nz i j v : 0 <= n -> csc_arrays m n Jc Ir Pr nz -> 0 <= j < n ->
  stored Jc Ir Pr i j v -> 1 <= nz.
Proof.
  intros Hn H Hj Hs. destruct (csc_link _ _ _ _ _ _ Hn H) as [C [R E]].
  apply (Csc_stored _ _ _ _ _ _ _ _ C Hj) in Hs. rewrite <- E.
  pose proof (start_mono (column d Jc Ir Pr) (j + 1) n ltac:(lia)) as M. rewrite start_succ in M by lia.
  pose proof (start_nonneg (column d Jc Ir Pr) j). destruct (column d Jc Ir Pr j) as [|e l]; [contradiction|].
  rewrite zlen_cons in M. pose proof (zlen_nonneg l). lia.
Qed.

End Csc.

(** ** Permutations *)

Lemma NoDup_map_in {T U} (f : T -> U) l :
  (forall x y, In x l -> In y l -> f x = f y -> x = y) -> NoDup l -> NoDup (map f l).
Proof.
  intros Hf ND. induction ND as [|x l Hx ND IH]; cbn; constructor.
  - intros Hin. apply in_map_iff in Hin. destruct Hin as [y [E Hy]].
    assert (y = x) by (apply Hf; [right|left|]; auto). subst. contradiction.
  - apply IH. intros a b Ha Hb. apply Hf; right; auto.
Qed.

Lemma perm_link P N : permutation_array P N -> exists Qf, isperm N (get 0 P) Qf /\ vec P N (get 0 P).
Proof.
  intros [HR HI].
  assert (HV : vec P N (get 0 P)).
  { intros i Hi. destruct (HR i Hi) as [a [E _]]. rewrite E. f_equal. symmetry. apply get_rd. auto. }
  assert (HB : forall i, 0 <= i < N -> 0 <= get 0 P i < N).
  { intros i Hi. destruct (HR i Hi) as [a [E L]]. rewrite (get_rd 0 _ _ _ E). auto. }
  set (Qf := fun a => match find (fun i => get 0 P i =? a) (zr 0 N) with Some i => i | None => 0 end).
  assert (HS : forall a, 0 <= a < N -> In a (map (get 0 P) (zr 0 N))).
  { intros a Ha. assert (ND : NoDup (map (get 0 P) (zr 0 N))).
    { apply NoDup_map_in; [|apply NoDup_zr].
      intros x y Hx Hy E. apply in_zr in Hx. apply in_zr in Hy. apply (HI x y (get 0 P x)); auto.
      rewrite E. auto. }
    assert (Hin : incl (zr 0 N) (map (get 0 P) (zr 0 N))).
    { apply NoDup_length_incl.
      - auto.
      - rewrite map_length. auto.
      - intros x Hx. apply in_map_iff in Hx. destruct Hx as [i [<- Hi]]. apply in_zr. apply in_zr in Hi. auto. }
    apply Hin. apply in_zr. auto. }
  assert (HQ : forall a, 0 <= a < N -> 0 <= Qf a < N /\ get 0 P (Qf a) = a).
  { intros a Ha. unfold Qf. destruct (find _ (zr 0 N)) as [i|] eqn:E.
    - apply find_some in E. destruct E as [Hin Heq]. apply in_zr in Hin. apply Z.eqb_eq in Heq. auto.
    - exfalso. specialize (HS a Ha). apply in_map_iff in HS. destruct HS as [i [E1 Hi]].
      apply (find_none _ _ E) in Hi. rewrite E1, Z.eqb_refl in Hi. discriminate. }
  exists Qf. split; [split|]; auto.
  - intros a Ha. apply HQ. auto.
  - intros k Hk. destruct (HQ (get 0 P k) (HB k Hk)) as [H1 H2].
    apply (HI (Qf (get 0 P k)) k (get 0 P k)); auto. rewrite HV by auto. f_equal. auto.
  - intros a Ha. apply HQ. auto.
Qed.

Lemma perm_unlink P N Pf Qf : isperm N Pf Qf -> vec P N Pf -> permutation_array P N.
Proof.
  intros HP HV. split.
  - intros i Hi. exists (Pf i). split; auto. apply (pf_range _ _ _ HP). auto.
  - intros i j a Hi Hj E1 E2. rewrite HV in E1, E2 by auto. inversion E1; inversion E2; subst.
    rewrite <- (qf_pf _ _ _ HP i), <- (qf_pf _ _ _ HP j) by auto. congruence.
Qed.
