(** Properties C01-C03: conversion of dense input, transposes. *)
From Coq Require Import ZArith Reals List Lia Lra Bool.
From Verif Require Import Res Arith Lists MSparse Csc SemVec Flat DenseProofs TransposeProofs MSolver Setup Spec SpecLink.
Import ListNotations.
Open Scope Z_scope.

(** ** C01 *)

Lemma dense_sorted A m d j k r v r' v' :
  nth_error (dense_col A m d j) k = Some (r, v) -> nth_error (dense_col A m d j) (S k) = Some (r', v') -> r < r'.
Proof.
  assert (G : forall k0, 0 <= k0 -> forall k r v r' v', nth_error (dense_col A k0 d j) k = Some (r, v) ->
              nth_error (dense_col A k0 d j) (S k) = Some (r', v') -> r < r').
  { apply (zr_ind (fun k0 => forall k r v r' v', nth_error (dense_col A k0 d j) k = Some (r, v) ->
              nth_error (dense_col A k0 d j) (S k) = Some (r', v') -> r < r')).
    - intros [|k1] r1 v1 r2 v2 H; discriminate.
    - intros k0 Hk0 IH k1 r1 v1 r2 v2 H1 H2. rewrite dense_col_succ in H1, H2 by lia.
      destruct (fneq0 A (d k0 j)); [|rewrite app_nil_r in H1, H2; eapply IH; eauto].
      assert (HL : (S k1 < length (dense_col A k0 d j ++ [(k0, d k0 j)]))%nat) by (apply nth_error_Some; congruence).
      rewrite app_length in HL. cbn in HL.
      rewrite nth_error_app1 in H1 by lia.
      destruct (Nat.eq_dec (S k1) (length (dense_col A k0 d j))) as [E|E].
      + rewrite nth_error_app2, E, Nat.sub_diag in H2 by lia. cbn in H2. inversion H2; subst.
        apply nth_error_In, dense_col_rows in H1. lia.
      + rewrite nth_error_app1 in H2 by lia. eapply IH; eauto. }
  destruct (Z.le_gt_cases 0 m) as [Hm|Hm]; [apply G; auto|].
  unfold dense_col. rewrite zr_nil by lia. destruct k; discriminate.
Qed.

Lemma dense_result A m n d M : 0 <= m -> 0 <= n -> ReprX M m n (dense_col A m d) ->
  sn M = n /\ sm M = m /\ zlen (jc M) = n + 1 /\ zlen (ir M) = nnz M /\ zlen (pr M) = nnz M /\
  csc_arrays m n (jc M) (ir M) (pr M) (nnz M) /\ sorted_columns n (jc M) (ir M) /\
  (forall i j v, 0 <= j < n -> stored (jc M) (ir M) (pr M) i j v <->
     0 <= i < m /\ v = d i j /\ feqb A v (f0 A) = false).
Proof.
  intros Hm Hn [R L1 L2 L3]. pose proof (rp_nnz _ _ _ _ R) as E. pose proof (rp_csc _ _ _ _ R) as C.
  split; [apply R|]. split; [apply R|]. split; [auto|]. split; [lia|]. split; [lia|]. split; [|split].
  - rewrite E. apply Csc_arrays; auto. apply R.
  - intros j a b k Hj Ea Eb Ha Hb.
    rewrite (csc_jc _ _ _ _ _ C j ltac:(lia)) in Ea. rewrite (csc_jc _ _ _ _ _ C (j + 1) ltac:(lia)) in Eb.
    inversion Ea; inversion Eb; subst a b. rewrite start_succ in Hb by lia.
    set (t := Z.to_nat (k - start (dense_col A m d) j)).
    destruct (nth_error (dense_col A m d j) t) as [[r v]|] eqn:E1; [|apply nth_error_None in E1; unfold zlen in Hb; lia].
    destruct (nth_error (dense_col A m d j) (S t)) as [[r' v']|] eqn:E2; [|apply nth_error_None in E2; unfold zlen in Hb; lia].
    exists r, r'. pose proof (csc_ir _ _ _ _ _ C j t r v Hj E1) as G1. pose proof (csc_ir _ _ _ _ _ C j (S t) r' v' Hj E2) as G2.
    replace (start (dense_col A m d) j + Z.of_nat t) with k in G1 by lia.
    replace (start (dense_col A m d) j + Z.of_nat (S t)) with (k + 1) in G2 by lia.
    split; auto. split; auto. eapply dense_sorted; eauto.
  - intros i j v Hj. rewrite (Csc_stored _ _ _ _ _ i j v C Hj). split.
    + intros Hin. apply dense_col_rows in Hin. destruct Hin as [H1 [H2 H3]]. unfold fneq0 in H3.
      split; auto. split; auto. destruct (feqb A v (f0 A)); auto; discriminate.
    + intros [H1 [-> H2]]. apply dense_col_in; auto. unfold fneq0. rewrite H2. reflexivity.
Qed.

(** The dense buffer [p] in column-major order becomes a well-formed compressed-column matrix that
    stores exactly the entries different from 0, with their values. *)
Theorem C01_dense_conversion A m n p : 0 <= m -> 0 <= n -> filled p (m * n) ->
  exists M, densetosparse A m n p = Ok M /\ sn M = n /\ sm M = m /\
    zlen (jc M) = n + 1 /\ zlen (ir M) = nnz M /\ zlen (pr M) = nnz M /\
    csc_arrays m n (jc M) (ir M) (pr M) (nnz M) /\ sorted_columns n (jc M) (ir M) /\
    (forall i j v, 0 <= j < n -> stored (jc M) (ir M) (pr M) i j v <->
       0 <= i < m /\ rd p (j * m + i) = Ok v /\ feqb A v (f0 A) = false).
Proof.
  intros Hm Hn Hf. set (d := fun i j => get (f0 A) p (j * m + i)).
  assert (Hd : forall i j, 0 <= i < m -> 0 <= j < n -> rd p (j * m + i) = Ok (d i j)).
  { intros i j Hi Hj. apply (filled_vec (f0 A) p (m * n) Hf). nia. }
  pose proof (densetosparse_ok A m n p d Hm Hn Hd) as H. apply wp_exists in H. destruct H as [M [E HM]].
  exists M. split; auto. destruct (dense_result A m n d M Hm Hn HM) as [H1 [H2 [H3 [H4 [H5 [H6 [H7 H8]]]]]]].
  do 7 (split; [assumption|]). intros i j v Hj. rewrite (H8 i j v Hj). split.
  - intros [G1 [-> G2]]. auto.
  - intros [G1 [G2 G3]]. split; auto. split; auto. rewrite Hd in G2 by auto. congruence.
Qed.

(** In exact arithmetic it denotes the same matrix. *)
Theorem C01_dense_conversion_entries m n p M : 0 <= m -> 0 <= n -> filled p (m * n) ->
  densetosparse RA m n p = Ok M ->
  forall i j v, 0 <= i < m -> 0 <= j < n -> rd p (j * m + i) = Ok v -> mat_entry (jc M) (ir M) (pr M) i j = v.
Proof.
  intros Hm Hn Hf E i j v Hi Hj Ev. set (d := fun i j => get 0%R p (j * m + i)).
  assert (Hd : forall i j, 0 <= i < m -> 0 <= j < n -> rd p (j * m + i) = Ok (d i j)).
  { intros i' j' Hi' Hj'. apply (filled_vec 0%R p (m * n) Hf). nia. }
  pose proof (densetosparse_ok RA m n p d Hm Hn Hd) as H. rewrite E in H. cbn in H.
  pose proof (Csc_column 0%R _ _ _ n (dense_col RA m d) j (rp_csc _ _ _ _ (rx_repr _ _ _ _ H)) Hj) as EC.
  unfold mat_entry. cbn [car RA] in *. rewrite EC. rewrite Hd in Ev by auto. inversion Ev. apply (dense_col_ent m d i j Hi).
Qed.
Print Assumptions C01_dense_conversion.
Print Assumptions C01_dense_conversion_entries.

(** A 2 x 3 buffer with a zero column and a negative zero. *)
Example C01_case : filled (full (map b64_ofZ [0; 5; 0; 0; 7; -2])) (2 * 3).
Proof. intros i Hi. apply rd_full_ok. unfold zlen; cbn; lia. Qed.

(** ** C02 *)

(** Row-major and column-major copies of the same matrix give the same compressed-column matrix. *)
Theorem C02_orderings_agree A m n prow pcol : 0 <= m -> 0 <= n -> filled pcol (m * n) ->
  (forall i j, 0 <= i < m -> 0 <= j < n -> rd prow (i * n + j) = rd pcol (j * m + i)) ->
  densetosparse_ROWMAJOR A m n prow = densetosparse A m n pcol /\ exists M, densetosparse A m n pcol = Ok M.
Proof.
  intros Hm Hn Hf HT. set (d := fun i j => get (f0 A) pcol (j * m + i)).
  assert (Hd : forall i j, 0 <= i < m -> 0 <= j < n -> rd pcol (j * m + i) = Ok (d i j)).
  { intros i j Hi Hj. apply (filled_vec (f0 A) pcol (m * n) Hf). nia. }
  pose proof (densetosparse_ok A m n pcol d Hm Hn Hd) as H1.
  assert (Hd2 : forall i j, 0 <= i < m -> 0 <= j < n -> rd prow (i * n + j) = Ok (d i j)).
  { intros i j Hi Hj. rewrite HT; auto. }
  pose proof (densetosparse_ROWMAJOR_ok A m n prow d Hm Hn Hd2) as H2.
  apply wp_exists in H1. destruct H1 as [M1 [E1 R1]]. apply wp_exists in H2. destruct H2 as [M2 [E2 R2]].
  rewrite E1, E2. split; [|eauto]. f_equal. eapply ReprX_unique; eauto.
Qed.
Print Assumptions C02_orderings_agree.

Example C02_case :
  let prow := full (map b64_ofZ [0; 0; 7; 5; 0; -2]) in
  let pcol := full (map b64_ofZ [0; 5; 0; 0; 7; -2]) in
  filled pcol (2 * 3) /\ (forall i j, 0 <= i < 2 -> 0 <= j < 3 -> rd prow (i * 3 + j) = rd pcol (j * 2 + i)).
Proof.
  cbv zeta. split.
  - intros i Hi. apply rd_full_ok. unfold zlen; cbn; lia.
  - intros i j Hi Hj. assert (i = 0 \/ i = 1) as [->| ->] by lia; assert (j = 0 \/ j = 1 \/ j = 2) as [->|[->| ->]] by lia; reflexivity.
Qed.

(** ** C03 *)

(** The transposes that setup builds.  Column k of the result lists the stored entries of row k of the
    argument in order of their columns, with unchanged values. *)
Theorem C03_transpose A m n Jc Ir Pr nz : 0 <= m -> 0 <= n -> csc_arrays m n Jc Ir Pr nz ->
  exists T, setup_transpose A (mkSmat Jc Ir Pr n m nz) = Ok T /\ sn T = m /\ sm T = n /\ nnz T = nz /\
    csc_arrays n m (jc T) (ir T) (pr T) nz /\
    zlen (jc T) = m + 1 /\ zlen (ir T) = nz /\ zlen (pr T) = nz /\
    (forall k, 0 <= k < m -> column (f0 A) (jc T) (ir T) (pr T) k =
       flat_map (fun j => map (fun e => (j, snd e)) (filter (fun e => fst e =? k) (column (f0 A) Jc Ir Pr j))) (zr 0 n)) /\
    (forall i j v, 0 <= i < m -> 0 <= j < n -> stored (jc T) (ir T) (pr T) j i v <-> stored Jc Ir Pr i j v).
Proof.
  intros Hm Hn H. destruct (csc_link (f0 A) _ _ _ _ _ _ Hn H) as [C [R S]].
  assert (RM : Repr (mkSmat Jc Ir Pr n m nz) m n (column (f0 A) Jc Ir Pr)) by (split; auto).
  pose proof (setup_transpose_ok A _ _ _ _ RM) as HT. apply wp_exists in HT. destruct HT as [T [E [RT L1 L2 L3]]].
  assert (ES : start (tcol (column (f0 A) Jc Ir Pr) n) m = nz) by (rewrite start_tcol; auto).
  exists T. split; auto. split; [apply RT|]. split; [apply RT|].
  split; [rewrite (rp_nnz _ _ _ _ RT); auto|].
  split; [rewrite <- ES; apply Csc_arrays; auto; apply RT|].
  split; [auto|]. split; [lia|]. split; [lia|].
  pose proof (rp_csc _ _ _ _ RT) as CT. split.
  - intros k Hk. rewrite (Csc_column (f0 A) _ _ _ _ _ k CT Hk). reflexivity.
  - intros i j v Hi Hj. rewrite (Csc_stored _ _ _ _ _ j i v CT Hi), (Csc_stored _ _ _ _ _ i j v C Hj), in_tcol. tauto.
Qed.

Theorem C03_transpose_entries m n Jc Ir Pr nz T : 0 <= m -> 0 <= n -> csc_arrays m n Jc Ir Pr nz ->
  setup_transpose RA (mkSmat Jc Ir Pr n m nz) = Ok T ->
  forall i j, 0 <= i < m -> 0 <= j < n -> mat_entry (jc T) (ir T) (pr T) j i = mat_entry Jc Ir Pr i j.
Proof.
  intros Hm Hn H E i j Hi Hj. destruct (C03_transpose RA m n Jc Ir Pr nz Hm Hn H) as [T' [E' [_ [_ [_ [_ [_ [_ [_ [HC _]]]]]]]]]].
  assert (T' = T) by congruence. subst T'. specialize (HC i Hi). unfold mat_entry. cbn [f0 RA fofZ car] in *. rewrite HC.
  exact (tcol_ent (column 0%R Jc Ir Pr) n i j Hj).
Qed.
Print Assumptions C03_transpose.
Print Assumptions C03_transpose_entries.

(** A 2 x 3 matrix with an unsorted, duplicated first column and an empty second one. *)
Example C03_case : csc_arrays 2 3 (full [0; 3; 3; 4]) (full [1; 0; 1; 0]) (full (map b64_ofZ [1; 2; 3; 4])) 4.
Proof.
  split; [split|]; try reflexivity.
  - intros j Hj. assert (j = 0 \/ j = 1 \/ j = 2) as [->|[->| ->]] by lia; do 2 eexists; (split; [reflexivity|split; [reflexivity|lia]]).
  - intros k Hk. assert (k = 0 \/ k = 1 \/ k = 2 \/ k = 3) as [->|[->|[->| ->]]] by lia; eexists; (split; [reflexivity|lia]).
  - intros k Hk. apply rd_full_ok. unfold zlen; cbn; lia.
Qed.
