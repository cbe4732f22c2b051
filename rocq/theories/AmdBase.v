(** Tools for the proofs about the ordering package: loops with fuel, updating functions, sums. *)
From Coq Require Import ZArith List Lia Bool Permutation.
From Verif Require Import Res Lists MAmd.
Import ListNotations.
Open Scope Z_scope.
Open Scope res_scope.

(** ** Loops *)

(** A loop whose measure [m] decreases and stays within the fuel. *)
Lemma wp_while {S} (Inv : S -> Prop) (m : S -> Z) fuel (cond : S -> res bool) (body : S -> res S) s (Q : S -> Prop) :
  Inv s -> m s < Z.of_nat fuel ->
  (forall s, Inv s -> 0 <= m s /\ wp (cond s) (fun b => if b : bool then wp (body s) (fun s' => Inv s' /\ m s' < m s) else Q s)) ->
  wp (while_ fuel cond body s) Q.
Proof.
  revert s. induction fuel as [|f IH]; intros s HI Hm Hs.
  - destruct (Hs s HI). lia.
  - simpl. apply wp_bind. destruct (Hs s HI) as [H0 H1]. eapply wp_mono; [exact H1|].
    intros [|] H; [|exact H]. apply wp_bind. eapply wp_mono; [exact H|]. intros s' [HI' Hm']. apply IH; auto. lia.
Qed.

Lemma fuel_gt z : 0 <= z -> z < Z.of_nat (fuel z).
Proof. unfold fuel. lia. Qed.

(** ** Updating a function at one point *)

Definition fup (f : Z -> Z) (i v x : Z) : Z := if x =? i then v else f x.

Lemma fup_eq f i v : fup f i v i = v.
Proof. unfold fup. now rewrite Z.eqb_refl. Qed.
Lemma fup_ne f i v x : x <> i -> fup f i v x = f x.
Proof. unfold fup. intros H. destruct (Z.eqb_spec x i); congruence. Qed.

Lemma is_vec_wr a n f i (v : Z) (Q : arr Z -> Prop) : is_vec a n f -> 0 <= i < n ->
  (forall a', is_vec a' n (fup f i v) -> Q a') -> wp (wr a i v) Q.
Proof.
  intros [L R] Hi H. apply wp_wr; [lia|]. intros a' L' R'. apply H. split; [lia|]. intros j Hj. rewrite R'. unfold fup.
  destruct (j =? i); auto.
Qed.

Lemma is_vec_rd a n f i (Q : Z -> Prop) : is_vec a n f -> 0 <= i < n -> Q (f i) -> wp (rd a i) Q.
Proof. intros [_ R] Hi H. rewrite R by auto. exact H. Qed.

(** The cells [0, k) hold f. *)
Definition is_pre (a : arr Z) (n k : Z) (f : Z -> Z) : Prop := zlen a = n /\ forall i, 0 <= i < k -> rd a i = Ok (f i).

Lemma is_pre_vec a n f : is_pre a n n f <-> is_vec a n f.
Proof. reflexivity. Qed.

Lemma is_pre_wr a n k f i (v : Z) (Q : arr Z -> Prop) : is_pre a n k f -> 0 <= i < n -> i <= k ->
  (forall a', is_pre a' n (Z.max k (i + 1)) (fup f i v) -> Q a') -> wp (wr a i v) Q.
Proof.
  intros [L R] Hi Hk H. apply wp_wr; [lia|]. intros a' L' R'. apply H. split; [lia|]. intros j Hj. rewrite R'. unfold fup.
  destruct (Z.eqb_spec j i); auto. apply R; lia.
Qed.

Lemma is_pre_rd a n k f i (Q : Z -> Prop) : is_pre a n k f -> 0 <= i < k -> Q (f i) -> wp (rd a i) Q.
Proof. intros [_ R] Hi H. rewrite R by auto. exact H. Qed.

Lemma is_pre_0 a n f : zlen a = n -> is_pre a n 0 f.
Proof. split; auto. intros; lia. Qed.

(** Filling a block from left to right. *)
Lemma wp_fill_pre (a : arr Z) n (g : Z -> Z) (body : Z -> arr Z -> res (arr Z)) (Q : arr Z -> Prop) :
  0 <= n -> zlen a = n ->
  (forall k a, 0 <= k < n -> is_pre a n k g -> wp (body k a) (fun a' => is_pre a' n (k + 1) g)) ->
  (forall a, is_vec a n g -> Q a) -> wp (for_ 0 n body a) Q.
Proof.
  intros Hn L Hb HQ. apply (wp_for_le (fun k a => is_pre a n k g)); auto. apply is_pre_0; auto.
Qed.

Lemma is_pre_wr_next a n k g v (Q : arr Z -> Prop) : is_pre a n k g -> 0 <= k < n -> v = g k ->
  (forall a', is_pre a' n (k + 1) g -> Q a') -> wp (wr a k v) Q.
Proof.
  intros [L R] Hk E H. apply wp_wr; [lia|]. intros a' L' R'. apply H. split; [lia|]. intros j Hj. rewrite R'.
  destruct (Z.eqb_spec j k); subst; auto. apply R; lia.
Qed.

Lemma mono_steps (f : Z -> Z) n : (forall j, 0 <= j < n -> f j <= f (j + 1)) -> forall a b, 0 <= a -> a <= b -> b <= n -> f a <= f b.
Proof.
  intros H a b Ha Hab. pattern b. apply (zr_ind _ a); auto; [lia|]. intros k Hk IH Hn.
  specialize (H k ltac:(lia)). specialize (IH ltac:(lia)). lia.
Qed.

(** The column a position belongs to. *)
Lemma mono_find (f : Z -> Z) n k : 0 <= n -> f 0 <= k < f n -> exists j, 0 <= j < n /\ f j <= k < f (j + 1).
Proof.
  intros Hn. pattern n. apply (zr_ind _ 0); auto; [lia|]. intros c Hc IH Hk.
  destruct (Z.lt_ge_cases k (f c)).
  - destruct (IH ltac:(lia)) as [j [? ?]]. exists j. split; [lia|auto].
  - exists c. split; lia.
Qed.

(** ** Sums *)

Lemma sumz_perm {T} (f : T -> Z) l1 l2 : Permutation l1 l2 -> sumz f l1 = sumz f l2.
Proof. induction 1; simpl; lia. Qed.

Lemma sumz_fup f i v l : NoDup l -> In i l -> sumz (fup f i v) l = sumz f l + v - f i.
Proof.
  induction l as [|a l IH]; simpl; intros ND H; [tauto|]. inversion ND; subst. destruct H as [->|H].
  - rewrite fup_eq. rewrite (sumz_ext (fup f i v) f); [lia|]. intros x Hx. apply fup_ne. congruence.
  - rewrite fup_ne by congruence. rewrite IH; auto. lia.
Qed.

Lemma sumz_fup_out f i v l : ~ In i l -> sumz (fup f i v) l = sumz f l.
Proof. intros H. apply sumz_ext. intros x Hx. apply fup_ne. congruence. Qed.

Lemma sumz_const {T} c (l : list T) : sumz (fun _ => c) l = c * zlen l.
Proof. induction l as [|a l IH]; [change (0 = c * 0); ring|]. rewrite zlen_cons. cbn [sumz]. rewrite IH. ring. Qed.

Lemma sumz_le {T} (f g : T -> Z) l : (forall x, In x l -> f x <= g x) -> sumz f l <= sumz g l.
Proof. induction l as [|a l IH]; simpl; intros H; [lia|]. pose proof (H a (or_introl eq_refl)).
  assert (sumz f l <= sumz g l) by (apply IH; auto). lia. Qed.

Lemma sumz_filter {T} (p : T -> bool) (f : T -> Z) l : sumz f (filter p l) = sumz (fun x => if p x then f x else 0) l.
Proof. induction l; simpl; auto. destruct (p a); simpl; rewrite IHl; lia. Qed.

Lemma sumz_ge_term {T} (f : T -> Z) l x : (forall y, In y l -> 0 <= f y) -> In x l -> f x <= sumz f l.
Proof.
  induction l as [|a l IH]; simpl; intros H Hi; [tauto|]. destruct Hi as [->|Hx].
  - assert (0 <= sumz f l) by (apply sumz_nonneg; auto). lia.
  - pose proof (H a (or_introl eq_refl)). assert (f x <= sumz f l) by (apply IH; auto). lia.
Qed.

(** A duplicate-free sublist of a list has a smaller sum of nonnegative terms. *)
Lemma sumz_incl (f : Z -> Z) l1 l2 : NoDup l1 -> incl l1 l2 -> (forall x, In x l2 -> 0 <= f x) -> sumz f l1 <= sumz f l2.
Proof.
  revert l2. induction l1 as [|a l1 IH]; intros l2 ND HI H; simpl; [apply sumz_nonneg; auto|].
  inversion ND; subst. destruct (in_split a l2) as [u [v ->]]; [apply HI; left; auto|].
  rewrite (sumz_perm f (u ++ a :: v) (a :: u ++ v)) by (symmetry; apply Permutation_middle). simpl.
  assert (sumz f l1 <= sumz f (u ++ v)); [|lia]. apply IH; auto.
  - intros x Hx. assert (Hi : In x (u ++ a :: v)) by (apply HI; right; auto).
    apply in_app_iff in Hi. apply in_app_iff. destruct Hi as [?|[->|?]]; auto. tauto.
  - intros x Hx. apply H. apply in_app_iff in Hx. apply in_app_iff. destruct Hx; auto. right; right; auto.
Qed.
