(** Building column-compressed arrays by appending entries one after the other. *)
From Coq Require Import ZArith Reals List Lia Lra Bool.
From Verif Require Import Res Arith Lists MSparse Csc.
Import ListNotations.
Open Scope Z_scope.
Open Scope res_scope.

(** Row and value arrays whose first cells hold the entries [l]; [cap] is the block size. *)
Record logged {F} (Ai : arr Z) (Ax : arr F) (k cap : Z) (l : list (Z * F)) : Prop := mkLogged {
  lg_i : zlen Ai = cap;
  lg_x : zlen Ax = cap;
  lg_k : k = zlen l;
  lg_ri : forall t r v, nth_error l t = Some (r, v) -> rd Ai (Z.of_nat t) = Ok r;
  lg_rx : forall t r v, nth_error l t = Some (r, v) -> rd Ax (Z.of_nat t) = Ok v
}.

Lemma logged_nil {F} (Ai : arr Z) (Ax : arr F) cap :
  zlen Ai = cap -> zlen Ax = cap -> logged Ai Ax 0 cap [].
Proof. intros. split; auto; intros [|t]; discriminate. Qed.

Lemma logged_push {F} (Ai : arr Z) (Ax : arr F) k cap l r v Ai' Ax' :
  logged Ai Ax k cap l -> wr Ai k r = Ok Ai' -> wr Ax k v = Ok Ax' ->
  logged Ai' Ax' (k + 1) cap (l ++ [(r, v)]).
Proof.
  intros [L1 L2 -> R1 R2] W1 W2. split.
  - rewrite (wr_len _ _ _ _ W1); auto.
  - rewrite (wr_len _ _ _ _ W2); auto.
  - rewrite zlen_app, zlen_cons, zlen_nil. lia.
  - intros t r' v' H. rewrite (rd_wr _ _ _ _ _ W1).
    destruct (Z.eqb_spec (Z.of_nat t) (zlen l)) as [E|E].
    + assert (t = length l) by (unfold zlen in E; lia). subst t.
      rewrite nth_error_app2, Nat.sub_diag in H by lia. simpl in H. congruence.
    + assert (Ht : (t < length (l ++ [(r, v)]))%nat) by (apply nth_error_Some; congruence).
      rewrite app_length in Ht. simpl in Ht. unfold zlen in E.
      rewrite nth_error_app1 in H by lia. eapply R1; eauto.
  - intros t r' v' H. rewrite (rd_wr _ _ _ _ _ W2).
    destruct (Z.eqb_spec (Z.of_nat t) (zlen l)) as [E|E].
    + assert (t = length l) by (unfold zlen in E; lia). subst t.
      rewrite nth_error_app2, Nat.sub_diag in H by lia. simpl in H. congruence.
    + assert (Ht : (t < length (l ++ [(r, v)]))%nat) by (apply nth_error_Some; congruence).
      rewrite app_length in Ht. simpl in Ht. unfold zlen in E.
      rewrite nth_error_app1 in H by lia. eapply R2; eauto.
Qed.

(** All entries, column after column. *)
Definition flat {F} (col : cols F) (n : Z) : list (Z * F) := flat_map col (zr 0 n).

Lemma flat_succ {F} (col : cols F) n : 0 <= n -> flat col (n + 1) = flat col n ++ col n.
Proof. intros H. unfold flat. rewrite zr_snoc, flat_map_app by lia. simpl. now rewrite app_nil_r. Qed.

Lemma zlen_flat {F} (col : cols F) n : zlen (flat col n) = start col n.
Proof. apply zlen_flat_map. Qed.

Lemma flat_nth {F} (col : cols F) n j t e :
  0 <= j < n -> nth_error (col j) t = Some e ->
  nth_error (flat col n) (Z.to_nat (start col j) + t) = Some e.
Proof.
  intros Hj H. unfold flat.
  rewrite (zr_app 0 j n), flat_map_app by lia.
  assert (E : length (flat_map col (zr 0 j)) = Z.to_nat (start col j)).
  { rewrite <- (zlen_flat col j). unfold zlen, flat. lia. }
  rewrite nth_error_app2 by lia. rewrite E. replace (_ + t - _)%nat with t by lia.
  rewrite zr_cons by lia. simpl. rewrite nth_error_app1; auto.
  apply nth_error_Some. congruence.
Qed.

(** Every stored position belongs to a column. *)
Lemma start_decompose {F} (col : cols F) n q :
  0 <= n -> 0 <= q < start col n ->
  exists j t, 0 <= j < n /\ 0 <= t < zlen (col j) /\ q = start col j + t.
Proof.
  intros Hn. revert n Hn q. apply (zr_ind (fun n => forall q, 0 <= q < start col n ->
    exists j t, 0 <= j < n /\ 0 <= t < zlen (col j) /\ q = start col j + t)).
  - intros q Hq. rewrite start_0 in Hq. lia.
  - intros n Hn IH q Hq. rewrite start_succ in Hq by lia.
    destruct (Z.lt_ge_cases q (start col n)) as [H|H].
    + destruct (IH q ltac:(lia)) as [j [t [Hj [Ht E]]]]. exists j, t. repeat split; auto; lia.
    + exists n, (q - start col n). repeat split; lia.
Qed.

Lemma logged_csc {F} Jc (Ai : arr Z) (Ax : arr F) k cap n col :
  logged Ai Ax k cap (flat col n) ->
  (forall j, 0 <= j <= n -> rd Jc j = Ok (start col j)) ->
  Csc Jc Ai Ax n col.
Proof.
  intros L HJ. split; auto.
  - intros j t r v Hj H. pose proof (start_nonneg col j).
    replace (start col j + Z.of_nat t) with (Z.of_nat (Z.to_nat (start col j) + t)) by lia.
    eapply lg_ri; eauto. apply flat_nth; eauto.
  - intros j t r v Hj H. pose proof (start_nonneg col j).
    replace (start col j + Z.of_nat t) with (Z.of_nat (Z.to_nat (start col j) + t)) by lia.
    eapply lg_rx; eauto. apply flat_nth; eauto.
Qed.

Lemma nth_error_ext_eq {T} (a b : list T) : (forall i, nth_error a i = nth_error b i) -> a = b.
Proof.
  revert b. induction a as [|x a IH]; intros [|y b] H; auto.
  - specialize (H O). discriminate.
  - specialize (H O). discriminate.
  - pose proof (H O) as H0. simpl in H0. inversion H0; subst. f_equal. apply IH.
    intros i. exact (H (S i)).
Qed.

(** Arrays are determined by their length and reads (all cells written). *)
Lemma arr_ext {F} (a b : arr F) n f : is_vec a n f -> is_vec b n f -> a = b.
Proof.
  intros [La Ra] [Lb Rb].
  assert (E : forall i, (i < length a)%nat -> nth_error a i = nth_error b i).
  { intros i Hi. specialize (Ra (Z.of_nat i) ltac:(unfold zlen in La; lia)).
    specialize (Rb (Z.of_nat i) ltac:(unfold zlen in La; lia)).
    unfold rd in Ra, Rb. destruct (Z.of_nat i <? 0); [discriminate|]. rewrite Nat2Z.id in Ra, Rb.
    destruct (nth_error a i) as [[x|]|]; try discriminate.
    destruct (nth_error b i) as [[y|]|]; try discriminate. congruence. }
  apply nth_error_ext_eq. intros i.
  destruct (Nat.lt_ge_cases i (length a)) as [H|H]; auto.
  assert (H1 : nth_error a i = None) by (apply nth_error_None; lia).
  assert (H2 : nth_error b i = None) by (apply nth_error_None; unfold zlen in *; lia).
  congruence.
Qed.

(** No slack: the blocks have exactly the size needed. *)
Record ReprX {F} (M : smat F) (m n : Z) (col : cols F) : Prop := mkReprX {
  rx_repr : Repr M m n col;
  rx_jc : zlen (jc M) = n + 1;
  rx_ir : zlen (ir M) = start col n;
  rx_pr : zlen (pr M) = start col n
}.

Lemma ReprX_unique {F} (M1 M2 : smat F) m n col : ReprX M1 m n col -> ReprX M2 m n col -> M1 = M2.
Proof.
  intros [R1 J1 I1 P1] [R2 J2 I2 P2]. destruct R1 as [Hm Hn A1 B1 C1 D1 E1], R2 as [_ _ A2 B2 C2 D2 E2].
  assert (HJ : jc M1 = jc M2).
  { apply (arr_ext _ _ (n + 1) (start col)); split; auto; intros; [apply (csc_jc _ _ _ _ _ D1)|apply (csc_jc _ _ _ _ _ D2)]; lia. }
  assert (HD : forall q, 0 <= q < start col n -> exists r v, 
      rd (ir M1) q = Ok r /\ rd (ir M2) q = Ok r /\ rd (pr M1) q = Ok v /\ rd (pr M2) q = Ok v).
  { intros q Hq. destruct (start_decompose col n q Hn Hq) as [j [t [Hj [Ht ->]]]].
    destruct (nth_error (col j) (Z.to_nat t)) as [[r v]|] eqn:E.
    2:{ apply nth_error_None in E. unfold zlen in Ht. lia. }
    exists r, v. replace t with (Z.of_nat (Z.to_nat t)) by lia.
    repeat split; solve [eapply csc_ir; eauto|eapply csc_pr; eauto]. }
  assert (HI : ir M1 = ir M2).
  { apply (arr_ext _ _ (start col n) (fun q => match rd (ir M1) q with Ok r => r | _ => 0 end)); split; auto;
    intros q Hq; destruct (HD q Hq) as (r & v & Ha & Hb & Hc & Hd); rewrite Ha; auto. }
  assert (HP : pr M1 = pr M2).
  { destruct (pr M1) as [|x0 rest] eqn:EP.
    - destruct (pr M2); auto. rewrite zlen_nil in P1. rewrite zlen_cons in P2. pose proof (zlen_nonneg a). lia.
    - destruct (rd (x0 :: rest) 0) as [d| |] eqn:E0.
      + apply (arr_ext _ _ (start col n) (fun q => match rd (x0 :: rest) q with Ok r => r | _ => d end)); split; auto;
        intros q Hq; destruct (HD q Hq) as (r & v & Ha & Hb & Hc & Hd); rewrite Hc; auto.
      + rewrite zlen_cons in P1. pose proof (zlen_nonneg rest).
        destruct (HD 0 ltac:(lia)) as (r & v & Ha & Hb & Hc & Hd). congruence.
      + rewrite zlen_cons in P1. pose proof (zlen_nonneg rest).
        destruct (HD 0 ltac:(lia)) as (r & v & Ha & Hb & Hc & Hd). congruence. }
  destruct M1, M2; simpl in *; congruence.
Qed.
