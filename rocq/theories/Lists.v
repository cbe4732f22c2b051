(** Integer ranges, finite sums over lists, counting.  Nothing here refers to /repo. *)
From Coq Require Import ZArith Reals List Lia Lra Bool Permutation.
From Verif Require Import Res.
Import ListNotations.
Open Scope Z_scope.

(** ** Ranges [lo, hi) *)

Definition zr (lo hi : Z) : list Z := map (fun k => lo + Z.of_nat k) (seq 0 (Z.to_nat (hi - lo))).

Lemma zr_nil lo hi : hi <= lo -> zr lo hi = [].
Proof. intros H. unfold zr. replace (Z.to_nat (hi - lo)) with O by lia. reflexivity. Qed.

Lemma zr_cons lo hi : lo < hi -> zr lo hi = lo :: zr (lo + 1) hi.
Proof.
  intros H. unfold zr.
  replace (Z.to_nat (hi - lo)) with (S (Z.to_nat (hi - (lo + 1)))) by lia.
  simpl. f_equal; [lia|]. rewrite <- seq_shift, map_map. apply map_ext. intros; lia.
Qed.

Lemma zr_snoc lo hi : lo <= hi -> zr lo (hi + 1) = zr lo hi ++ [hi].
Proof.
  intros H. unfold zr.
  replace (Z.to_nat (hi + 1 - lo)) with (S (Z.to_nat (hi - lo))) by lia.
  rewrite seq_S, map_app. simpl. f_equal. f_equal. lia.
Qed.

Lemma in_zr lo hi i : In i (zr lo hi) <-> lo <= i < hi.
Proof.
  unfold zr. rewrite in_map_iff. split.
  - intros [k [E Hk]]. apply in_seq in Hk. lia.
  - intros H. exists (Z.to_nat (i - lo)). split; [lia|]. apply in_seq. lia.
Qed.

Lemma zr_app lo mid hi : lo <= mid <= hi -> zr lo hi = zr lo mid ++ zr mid hi.
Proof.
  intros H. remember (Z.to_nat (mid - lo)) as k eqn:E. revert lo H E.
  induction k as [|k IH]; intros lo H E.
  - replace mid with lo by lia. rewrite (zr_nil lo lo) by lia. reflexivity.
  - rewrite (zr_cons lo hi), (zr_cons lo mid) by lia. simpl. f_equal. apply IH; lia.
Qed.

Lemma NoDup_zr lo hi : NoDup (zr lo hi).
Proof.
  unfold zr. apply FinFun.Injective_map_NoDup; [|apply seq_NoDup].
  intros x y H. lia.
Qed.

Lemma zlen_zr lo hi : zlen (zr lo hi) = Z.max 0 (hi - lo).
Proof. unfold zlen, zr. rewrite map_length, seq_length. lia. Qed.

Lemma zr_ind (P : Z -> Prop) lo :
  P lo -> (forall k, lo <= k -> P k -> P (k + 1)) -> forall k, lo <= k -> P k.
Proof. intros H0 HS k Hk. apply (Zlt_lower_bound_ind P lo); auto. intros x IH Hx.
  destruct (Z.eq_dec x lo) as [->|]; auto. replace x with ((x - 1) + 1) by lia. apply HS; [lia|]. apply IH; lia.
Qed.

(** ** Integer sums *)

Fixpoint sumz {T} (f : T -> Z) (l : list T) : Z :=
  match l with
  | [] => 0
  | x :: t => f x + sumz f t
  end.

Lemma sumz_app {T} (f : T -> Z) l1 l2 : sumz f (l1 ++ l2) = sumz f l1 + sumz f l2.
Proof. induction l1; simpl; lia. Qed.

Lemma sumz_ext {T} (f g : T -> Z) l : (forall x, In x l -> f x = g x) -> sumz f l = sumz g l.
Proof. induction l; simpl; intros H; auto. rewrite H, IHl; auto. Qed.

Lemma sumz_nonneg {T} (f : T -> Z) l : (forall x, In x l -> 0 <= f x) -> 0 <= sumz f l.
Proof. induction l as [|a l IH]; simpl; intros H; [lia|]. pose proof (H a (or_introl eq_refl)).
  assert (0 <= sumz f l) by (apply IH; auto). lia. Qed.

Lemma sumz_plus {T} (f g : T -> Z) l : sumz (fun x => f x + g x) l = sumz f l + sumz g l.
Proof. induction l; simpl; lia. Qed.

Lemma sumz_swap {T U} (f : T -> U -> Z) l1 l2 :
  sumz (fun x => sumz (f x) l2) l1 = sumz (fun y => sumz (fun x => f x y) l1) l2.
Proof.
  induction l1; simpl.
  - induction l2; simpl; lia.
  - rewrite IHl1, <- sumz_plus. reflexivity.
Qed.

Lemma sumz_zero {T} (f : T -> Z) l : (forall x, In x l -> f x = 0) -> sumz f l = 0.
Proof. induction l; simpl; intros H; auto. rewrite H, IHl; auto. Qed.

Lemma sumz_delta i (v : Z) l : NoDup l -> In i l -> sumz (fun x => if x =? i then v else 0) l = v.
Proof.
  induction l as [|a l IH]; simpl; intros ND H; [tauto|]. inversion ND; subst.
  destruct H as [->|H].
  - rewrite Z.eqb_refl, sumz_zero; [lia|]. intros x Hx. destruct (Z.eqb_spec x i); auto. subst; tauto.
  - destruct (Z.eqb_spec a i); [subst; tauto|]. rewrite IH; auto.
Qed.

Lemma sumz_mono_zr (f : Z -> Z) a b : (forall x, 0 <= x < b -> 0 <= f x) -> 0 <= a <= b ->
  sumz f (zr 0 a) <= sumz f (zr 0 b).
Proof.
  intros H Hab. rewrite (zr_app 0 a b), sumz_app by lia.
  assert (0 <= sumz f (zr a b)); [|lia]. apply sumz_nonneg. intros x Hx. apply in_zr in Hx. apply H; lia.
Qed.

Lemma zlen_flat_map {T U} (f : T -> list U) l : zlen (flat_map f l) = sumz (fun x => zlen (f x)) l.
Proof. induction l; simpl; auto. rewrite zlen_app, IHl. reflexivity. Qed.

Lemma sumz_map {T U} (g : T -> U) (f : U -> Z) l : sumz f (map g l) = sumz (fun x => f (g x)) l.
Proof. induction l; simpl; congruence. Qed.

(** number of elements satisfying a test *)
Definition cnt {T} (p : T -> bool) (l : list T) : Z := sumz (fun x => if p x then 1 else 0) l.

Lemma cnt_filter {T} (p : T -> bool) l : cnt p l = zlen (filter p l).
Proof. unfold cnt. induction l; simpl; auto. destruct (p a); rewrite ?zlen_cons; lia. Qed.

Lemma cnt_nonneg {T} (p : T -> bool) l : 0 <= cnt p l.
Proof. apply sumz_nonneg. intros x _. destruct (p x); lia. Qed.

(** ** Real sums *)

Fixpoint sumr {T} (f : T -> R) (l : list T) : R :=
  match l with
  | [] => 0%R
  | x :: t => (f x + sumr f t)%R
  end.

Lemma sumr_app {T} (f : T -> R) l1 l2 : sumr f (l1 ++ l2) = (sumr f l1 + sumr f l2)%R.
Proof. induction l1; simpl; [lra|rewrite IHl1; lra]. Qed.

Lemma sumr_ext {T} (f g : T -> R) l : (forall x, In x l -> f x = g x) -> sumr f l = sumr g l.
Proof. induction l; simpl; intros H; auto. rewrite H, IHl; auto. Qed.

Lemma sumr_plus {T} (f g : T -> R) l : sumr (fun x => (f x + g x)%R) l = (sumr f l + sumr g l)%R.
Proof. induction l; simpl; [lra|rewrite IHl; lra]. Qed.

Lemma sumr_minus {T} (f g : T -> R) l : sumr (fun x => (f x - g x)%R) l = (sumr f l - sumr g l)%R.
Proof. induction l; simpl; [lra|rewrite IHl; lra]. Qed.

Lemma sumr_opp {T} (f : T -> R) l : sumr (fun x => (- f x)%R) l = (- sumr f l)%R.
Proof. induction l; simpl; [lra|rewrite IHl; lra]. Qed.

Lemma sumr_scal {T} c (f : T -> R) l : sumr (fun x => (c * f x)%R) l = (c * sumr f l)%R.
Proof. induction l; simpl; [lra|rewrite IHl; lra]. Qed.

Lemma sumr_scal_r {T} c (f : T -> R) l : sumr (fun x => (f x * c)%R) l = (sumr f l * c)%R.
Proof. induction l; simpl; [lra|rewrite IHl; lra]. Qed.

Lemma sumr_zero {T} (f : T -> R) l : (forall x, In x l -> f x = 0%R) -> sumr f l = 0%R.
Proof. induction l; simpl; intros H; auto. rewrite H, IHl; auto. lra. Qed.

Lemma sumr_swap {T U} (f : T -> U -> R) l1 l2 :
  sumr (fun x => sumr (f x) l2) l1 = sumr (fun y => sumr (fun x => f x y) l1) l2.
Proof.
  induction l1; simpl.
  - symmetry. apply sumr_zero. auto.
  - rewrite IHl1, <- sumr_plus. reflexivity.
Qed.

Lemma sumr_map {T U} (g : T -> U) (f : U -> R) l : sumr f (map g l) = sumr (fun x => f (g x)) l.
Proof. induction l; simpl; auto. rewrite IHl. reflexivity. Qed.

Lemma sumr_flat_map {T U} (g : T -> list U) (f : U -> R) l :
  sumr f (flat_map g l) = sumr (fun x => sumr f (g x)) l.
Proof. induction l; simpl; auto. rewrite sumr_app, IHl. reflexivity. Qed.

Lemma sumr_filter {T} (p : T -> bool) (f : T -> R) l :
  sumr f (filter p l) = sumr (fun x => if p x then f x else 0%R) l.
Proof. induction l; simpl; auto. destruct (p a); simpl; rewrite IHl; lra. Qed.

Lemma sumr_nonneg {T} (f : T -> R) l : (forall x, In x l -> (0 <= f x)%R) -> (0 <= sumr f l)%R.
Proof. induction l as [|a l IH]; simpl; intros H; [lra|]. pose proof (H a (or_introl eq_refl)).
  assert (0 <= sumr f l)%R by (apply IH; auto). lra. Qed.

Lemma sumr_pos {T} (f : T -> R) l : l <> [] -> (forall x, In x l -> (0 < f x)%R) -> (0 < sumr f l)%R.
Proof.
  destruct l as [|a l]; [congruence|]. intros _ H. simpl.
  pose proof (H a (or_introl eq_refl)).
  assert (0 <= sumr f l)%R by (apply sumr_nonneg; intros; apply Rlt_le, H; simpl; auto). lra.
Qed.

Lemma sumr_le {T} (f g : T -> R) l : (forall x, In x l -> (f x <= g x)%R) -> (sumr f l <= sumr g l)%R.
Proof. induction l as [|a l IH]; simpl; intros H; [lra|]. pose proof (H a (or_introl eq_refl)).
  assert (sumr f l <= sumr g l)%R by (apply IH; auto). lra. Qed.

Lemma sumr_ge_term {T} (f : T -> R) l x :
  (forall y, In y l -> (0 <= f y)%R) -> In x l -> (f x <= sumr f l)%R.
Proof.
  induction l as [|a l IH]; simpl; intros H Hi; [tauto|]. destruct Hi as [->|Hx].
  - assert (0 <= sumr f l)%R by (apply sumr_nonneg; auto). lra.
  - pose proof (H a (or_introl eq_refl)). assert (f x <= sumr f l)%R by (apply IH; auto). lra.
Qed.

Lemma sumr_perm {T} (f : T -> R) l1 l2 : Permutation l1 l2 -> sumr f l1 = sumr f l2.
Proof. induction 1; simpl; lra. Qed.

Lemma sumr_delta i (f : Z -> R) l :
  NoDup l -> In i l -> sumr (fun x => if x =? i then f x else 0%R) l = f i.
Proof.
  induction l as [|a l IH]; simpl; intros ND H; [tauto|]. inversion ND; subst.
  destruct H as [->|H].
  - rewrite Z.eqb_refl, sumr_zero; [lra|]. intros x Hx. destruct (Z.eqb_spec x i); auto. subst; tauto.
  - destruct (Z.eqb_spec a i); [subst; tauto|]. rewrite IH; auto. lra.
Qed.

Lemma sumr_delta_out i (f : Z -> R) l :
  ~ In i l -> sumr (fun x => if x =? i then f x else 0%R) l = 0%R.
Proof. intros H. apply sumr_zero. intros x Hx. destruct (Z.eqb_spec x i); auto. subst; tauto. Qed.

(** reindexing along a bijection of index lists *)
Lemma sumr_reindex (f : Z -> R) (g : Z -> Z) l1 l2 :
  Permutation (map g l1) l2 -> sumr f l2 = sumr (fun x => f (g x)) l1.
Proof. intros H. rewrite <- (sumr_perm f _ _ H). apply sumr_map. Qed.

Lemma sumr_abs {T} (f : T -> R) l : (Rabs (sumr f l) <= sumr (fun x => Rabs (f x)) l)%R.
Proof.
  induction l; simpl; [rewrite Rabs_R0; lra|].
  eapply Rle_trans; [apply Rabs_triang|]. lra.
Qed.

(** ** Lists *)

Lemma NoDup_bounded_length (l : list Z) lo hi :
  NoDup l -> (forall x, In x l -> lo <= x < hi) -> zlen l <= Z.max 0 (hi - lo).
Proof.
  intros ND H. rewrite <- zlen_zr. unfold zlen.
  apply Nat2Z.inj_le. apply NoDup_incl_length; auto.
  intros x Hx. apply in_zr. auto.
Qed.

Lemma nth_error_split_zlen {T} (l : list T) k x :
  nth_error l k = Some x -> exists l1 l2, l = l1 ++ x :: l2 /\ length l1 = k.
Proof. apply nth_error_split. Qed.

Lemma fold_left_ext_in {S T} (f g : S -> T -> S) l s :
  (forall s x, In x l -> f s x = g s x) -> fold_left f l s = fold_left g l s.
Proof. revert s; induction l; simpl; intros s H; auto. rewrite H by auto. apply IHl. auto. Qed.
