(** Result monad, arrays with uninitialised cells, counted loops, and weakest preconditions.

    This file models the parts of C the rest of the model is written in.  It corresponds to no
    particular line of /repo:
    - [arr A] is a malloc'ed block: a list of cells, [None] = never written (malloc does not clear).
    - [rd]/[wr] are [a[i]] / [a[i] = v]; leaving the block or reading an unwritten cell is [Ub].
    - [for_ lo hi] is [for (i = lo; i < hi; i++)] with a bound that the body does not change. *)
From Coq Require Import ZArith List Lia Bool.
Import ListNotations.
Open Scope Z_scope.

(** ** Outcomes *)

Inductive ub : Type :=
| OobRead    (* read outside a block *)
| OobWrite   (* write outside a block *)
| Uninit     (* use of a value nobody has stored *)
| NullPtr    (* NULL dereference *)
| Undef.     (* undefined real operation (exact arithmetic only): x/0, sqrt of a negative *)

Inductive res (A : Type) : Type :=
| Ok (a : A)
| Ub (u : ub)
| NoFuel.
Arguments Ok {A} a.
Arguments Ub {A} u.
Arguments NoFuel {A}.

Definition bind {A B : Type} (m : res A) (f : A -> res B) : res B :=
  match m with
  | Ok a => f a
  | Ub u => Ub u
  | NoFuel => NoFuel
  end.

Declare Scope res_scope.
Delimit Scope res_scope with res.
Notation "x <- m ;; k" := (bind m (fun x => k))
  (at level 61, m at next level, right associativity) : res_scope.
Notation "' p <- m ;; k" := (bind m (fun x => let p := x in k))
  (at level 61, p pattern, m at next level, right associativity) : res_scope.
Open Scope res_scope.

(** ** Arrays *)

Definition zlen {A : Type} (l : list A) : Z := Z.of_nat (length l).
Arguments zlen : simpl never.
Global Arguments Z.add : simpl never.
Global Arguments Z.sub : simpl never.
Global Arguments Z.mul : simpl never.
Global Arguments Z.of_nat : simpl never.
Global Arguments Z.to_nat : simpl never.

Definition arr (A : Type) : Type := list (option A).

Definition rd {A : Type} (a : arr A) (i : Z) : res A :=
  if i <? 0 then Ub OobRead
  else match nth_error a (Z.to_nat i) with
       | None => Ub OobRead
       | Some None => Ub Uninit
       | Some (Some v) => Ok v
       end.

Fixpoint upd {A : Type} (l : list A) (n : nat) (v : A) : list A :=
  match l, n with
  | [], _ => []
  | _ :: t, O => v :: t
  | h :: t, S n' => h :: upd t n' v
  end.

Definition wr {A : Type} (a : arr A) (i : Z) (v : A) : res (arr A) :=
  if (0 <=? i) && (i <? zlen a) then Ok (upd a (Z.to_nat i) (Some v)) else Ub OobWrite.

(** [malloc(n * sizeof)] (failure of malloc is not modelled). *)
Definition malloc (A : Type) (n : Z) : arr A := repeat None (Z.to_nat n).

(** A block whose cells have all been written, e.g. a caller's array. *)
Definition full {A : Type} (l : list A) : arr A := map Some l.

(** ** Loops *)

Fixpoint forN {S : Type} (n : nat) (i : Z) (body : Z -> S -> res S) (s : S) : res S :=
  match n with
  | O => Ok s
  | Datatypes.S n' => s' <- body i s ;; forN n' (i + 1) body s'
  end.

Definition for_ {S : Type} (lo hi : Z) (body : Z -> S -> res S) (s : S) : res S :=
  forN (Z.to_nat (hi - lo)) lo body s.

(** ** Weakest preconditions: [wp m Q] says that [m] is [Ok a] for some [a] with [Q a]. *)

Definition wp {A : Type} (m : res A) (Q : A -> Prop) : Prop :=
  match m with
  | Ok a => Q a
  | _ => False
  end.

Lemma wp_ok {A} (a : A) (Q : A -> Prop) : Q a -> wp (Ok a) Q.
Proof. intros H; exact H. Qed.

Lemma wp_bind {A B} (m : res A) (f : A -> res B) Q :
  wp m (fun a => wp (f a) Q) -> wp (bind m f) Q.
Proof. destruct m; simpl; auto. Qed.

Lemma wp_bind_inv {A B} (m : res A) (f : A -> res B) Q :
  wp (bind m f) Q -> wp m (fun a => wp (f a) Q).
Proof. destruct m; simpl; auto. Qed.

Lemma wp_mono {A} (m : res A) (P Q : A -> Prop) :
  wp m P -> (forall a, P a -> Q a) -> wp m Q.
Proof. destruct m; simpl; auto. Qed.

Lemma wp_and {A} (m : res A) (P Q : A -> Prop) :
  wp m P -> wp m Q -> wp m (fun a => P a /\ Q a).
Proof. destruct m; simpl; auto. Qed.

Lemma wp_exists {A} (m : res A) (Q : A -> Prop) :
  wp m Q <-> exists a, m = Ok a /\ Q a.
Proof.
  destruct m; simpl; split; intros H; try tauto; eauto;
    destruct H as [x [E HQ]]; inversion E; subst; auto.
Qed.

Lemma wp_eq {A} (m : res A) a (Q : A -> Prop) : m = Ok a -> Q a -> wp m Q.
Proof. intros -> H; exact H. Qed.

Lemma wp_ok_inv {A} (m : res A) a (Q : A -> Prop) : wp m Q -> m = Ok a -> Q a.
Proof. intros H E. rewrite E in H. exact H. Qed.

(** *** Lists and lengths *)

Lemma zlen_nonneg {A} (l : list A) : 0 <= zlen l.
Proof. unfold zlen; lia. Qed.

Lemma zlen_cons {A} (x : A) l : zlen (x :: l) = zlen l + 1.
Proof. unfold zlen; simpl; lia. Qed.

Lemma zlen_nil {A} : zlen (@nil A) = 0.
Proof. reflexivity. Qed.

Lemma zlen_app {A} (l1 l2 : list A) : zlen (l1 ++ l2) = zlen l1 + zlen l2.
Proof. unfold zlen; rewrite app_length; lia. Qed.

Lemma zlen_map {A B} (f : A -> B) l : zlen (map f l) = zlen l.
Proof. unfold zlen; now rewrite map_length. Qed.

Lemma zlen_rev {A} (l : list A) : zlen (rev l) = zlen l.
Proof. unfold zlen; now rewrite rev_length. Qed.

Lemma upd_length {A} (l : list A) n v : length (upd l n v) = length l.
Proof. revert n; induction l; intros [|n]; simpl; auto. Qed.

Lemma nth_error_upd {A} (l : list A) n v m :
  (n < length l)%nat ->
  nth_error (upd l n v) m = if Nat.eqb m n then Some v else nth_error l m.
Proof.
  revert n m; induction l as [|h t IH]; intros n m Hn; simpl in Hn; [lia|].
  destruct n as [|n], m as [|m]; simpl; auto.
  rewrite IH by lia. reflexivity.
Qed.

(** *** Reads and writes *)

Lemma wr_spec {A} (a : arr A) i v :
  0 <= i < zlen a ->
  exists a', wr a i v = Ok a' /\ zlen a' = zlen a /\
             forall j, rd a' j = if j =? i then Ok v else rd a j.
Proof.
  intros Hi. unfold wr.
  replace ((0 <=? i) && (i <? zlen a)) with true
    by (symmetry; apply andb_true_intro; split; [apply Z.leb_le|apply Z.ltb_lt]; lia).
  eexists; split; [reflexivity|]. split.
  - unfold zlen; now rewrite upd_length.
  - intros j. unfold rd. destruct (j <? 0) eqn:Ej.
    + apply Z.ltb_lt in Ej. destruct (j =? i) eqn:E; auto. apply Z.eqb_eq in E; lia.
    + apply Z.ltb_ge in Ej. rewrite nth_error_upd by (unfold zlen in *; lia).
      destruct (j =? i) eqn:E.
      * apply Z.eqb_eq in E; subst. now rewrite Nat.eqb_refl.
      * apply Z.eqb_neq in E.
        destruct (Nat.eqb_spec (Z.to_nat j) (Z.to_nat i)); auto; lia.
Qed.

Lemma wr_ok_inv {A} (a a' : arr A) i v : wr a i v = Ok a' -> 0 <= i < zlen a.
Proof.
  unfold wr. destruct ((0 <=? i) && (i <? zlen a)) eqn:E; [|discriminate].
  apply andb_prop in E. destruct E as [E1 E2].
  apply Z.leb_le in E1. apply Z.ltb_lt in E2. lia.
Qed.

Lemma wr_len {A} (a a' : arr A) i v : wr a i v = Ok a' -> zlen a' = zlen a.
Proof.
  intros H. pose proof (wr_ok_inv _ _ _ _ H) as Hi.
  destruct (wr_spec a i v Hi) as [b [E [L _]]]. rewrite E in H. inversion H; subst; auto.
Qed.

Lemma rd_wr {A} (a a' : arr A) i v j :
  wr a i v = Ok a' -> rd a' j = if j =? i then Ok v else rd a j.
Proof.
  intros H. pose proof (wr_ok_inv _ _ _ _ H) as Hi.
  destruct (wr_spec a i v Hi) as [b [E [_ R]]]. rewrite E in H. inversion H; subst; auto.
Qed.

Lemma wp_wr {A} (a : arr A) i v (Q : arr A -> Prop) :
  0 <= i < zlen a ->
  (forall a', zlen a' = zlen a -> (forall j, rd a' j = if j =? i then Ok v else rd a j) -> Q a') ->
  wp (wr a i v) Q.
Proof.
  intros Hi HQ. destruct (wr_spec a i v Hi) as [a' [E [L R]]].
  rewrite E. apply HQ; auto.
Qed.

Lemma wp_wr_eq {A} (a : arr A) i v :
  0 <= i < zlen a -> wp (wr a i v) (fun a' => wr a i v = Ok a').
Proof. intros Hi. destruct (wr_spec a i v Hi) as [a' [E _]]. now rewrite E. Qed.

Lemma wp_rd {A} (a : arr A) i v (Q : A -> Prop) : rd a i = Ok v -> Q v -> wp (rd a i) Q.
Proof. intros -> H; exact H. Qed.

Lemma rd_ok_range {A} (a : arr A) i v : rd a i = Ok v -> 0 <= i < zlen a.
Proof.
  unfold rd. destruct (i <? 0) eqn:E; [discriminate|]. apply Z.ltb_ge in E.
  intros H. destruct (nth_error a (Z.to_nat i)) eqn:En; [|discriminate].
  assert (Hl : (Z.to_nat i < length a)%nat) by (apply nth_error_Some; congruence).
  unfold zlen; lia.
Qed.

Lemma zlen_malloc A n : 0 <= n -> zlen (malloc A n) = n.
Proof. intros; unfold zlen, malloc; rewrite repeat_length; lia. Qed.

Lemma zlen_full {A} (l : list A) : zlen (full l) = zlen l.
Proof. apply zlen_map. Qed.

Lemma rd_full {A} (l : list A) i v :
  nth_error l (Z.to_nat i) = Some v -> 0 <= i -> rd (full l) i = Ok v.
Proof.
  intros H Hi. unfold rd, full.
  destruct (i <? 0) eqn:E; [apply Z.ltb_lt in E; lia|].
  now rewrite (map_nth_error Some _ _ H).
Qed.

Lemma rd_full_nth {A} (l : list A) i d :
  0 <= i < zlen l -> rd (full l) i = Ok (nth (Z.to_nat i) l d).
Proof.
  intros Hi. apply rd_full; [|lia].
  apply nth_error_nth'. unfold zlen in Hi; lia.
Qed.

Lemma rd_full_ok {A} (l : list A) i :
  0 <= i < zlen l -> exists v, rd (full l) i = Ok v.
Proof.
  intros Hi. destruct (nth_error l (Z.to_nat i)) eqn:E.
  - exists a. apply rd_full; auto; lia.
  - apply nth_error_None in E. unfold zlen in Hi; lia.
Qed.

(** *** Loops *)

Lemma wp_forN {S} (Inv : Z -> S -> Prop) (body : Z -> S -> res S) n i s (Q : S -> Prop) :
  Inv i s ->
  (forall j s, i <= j < i + Z.of_nat n -> Inv j s -> wp (body j s) (Inv (j + 1))) ->
  (forall s, Inv (i + Z.of_nat n) s -> Q s) ->
  wp (forN n i body s) Q.
Proof.
  revert i s. induction n as [|n IH]; intros i s H0 Hs HQ.
  - simpl. apply HQ. replace (i + Z.of_nat 0) with i by lia. auto.
  - simpl. apply wp_bind. eapply wp_mono; [apply Hs; auto; lia|].
    intros s' H1. apply IH; auto.
    + intros; apply Hs; auto; lia.
    + intros s1 H2. apply HQ. replace (i + Z.of_nat (Datatypes.S n)) with (i + 1 + Z.of_nat n) by lia. auto.
Qed.

Lemma wp_for {S} (Inv : Z -> S -> Prop) (body : Z -> S -> res S) lo hi s (Q : S -> Prop) :
  Inv lo s ->
  (forall i s, lo <= i < hi -> Inv i s -> wp (body i s) (Inv (i + 1))) ->
  (forall s, Inv (Z.max lo hi) s -> Q s) ->
  wp (for_ lo hi body s) Q.
Proof.
  intros H0 Hs HQ. unfold for_. apply (wp_forN Inv); auto.
  - intros j s' Hj. apply Hs; lia.
  - intros s'. replace (lo + Z.of_nat (Z.to_nat (hi - lo))) with (Z.max lo hi) by lia. auto.
Qed.

(** Same with [lo <= hi]. *)
Lemma wp_for_le {S} (Inv : Z -> S -> Prop) (body : Z -> S -> res S) lo hi s (Q : S -> Prop) :
  lo <= hi ->
  Inv lo s ->
  (forall i s, lo <= i < hi -> Inv i s -> wp (body i s) (Inv (i + 1))) ->
  (forall s, Inv hi s -> Q s) ->
  wp (for_ lo hi body s) Q.
Proof.
  intros Hle H0 Hs HQ. apply (wp_for Inv); auto.
  intros s'. rewrite Z.max_r by lia. auto.
Qed.

Lemma for_nil {S} lo hi (body : Z -> S -> res S) s : hi <= lo -> for_ lo hi body s = Ok s.
Proof. intros H. unfold for_. replace (Z.to_nat (hi - lo)) with O by lia. reflexivity. Qed.

Lemma for_step {S} lo hi (body : Z -> S -> res S) s :
  lo < hi -> for_ lo hi body s = bind (body lo s) (for_ (lo + 1) hi body).
Proof.
  intros H. unfold for_. replace (Z.to_nat (hi - lo)) with (Datatypes.S (Z.to_nat (hi - (lo + 1)))) by lia.
  reflexivity.
Qed.

Lemma forN_ext {S} n i (b1 b2 : Z -> S -> res S) s :
  (forall j s, i <= j < i + Z.of_nat n -> b1 j s = b2 j s) -> forN n i b1 s = forN n i b2 s.
Proof.
  revert i s. induction n as [|n IH]; intros i s H; simpl; auto.
  rewrite H by lia. destruct (b2 i s); simpl; auto.
  apply IH. intros; apply H; lia.
Qed.

Lemma for_ext {S} lo hi (b1 b2 : Z -> S -> res S) s :
  (forall j s, lo <= j < hi -> b1 j s = b2 j s) -> for_ lo hi b1 s = for_ lo hi b2 s.
Proof. intros H. apply forN_ext. intros; apply H; lia. Qed.

(** Filling cells [lo+off .. hi+off-1] of one array, one per iteration. *)
Lemma wp_fill {A} (g : Z -> A) (off lo hi : Z) (body : Z -> arr A -> res (arr A)) a (Q : arr A -> Prop) :
  0 <= lo + off -> hi + off <= zlen a -> lo <= hi ->
  (forall i a', lo <= i < hi -> zlen a' = zlen a ->
     (forall j, lo + off <= j < i + off -> rd a' j = Ok (g (j - off))) ->
     (forall j, ~ (lo + off <= j < i + off) -> rd a' j = rd a j) ->
     wp (body i a') (fun a2 => wr a' (i + off) (g i) = Ok a2)) ->
  (forall a', zlen a' = zlen a ->
     (forall j, lo + off <= j < hi + off -> rd a' j = Ok (g (j - off))) ->
     (forall j, ~ (lo + off <= j < hi + off) -> rd a' j = rd a j) -> Q a') ->
  wp (for_ lo hi body a) Q.
Proof.
  intros Hlo Hhi Hle Hb HQ.
  apply (wp_for_le (fun i a' => zlen a' = zlen a /\
    (forall j, lo + off <= j < i + off -> rd a' j = Ok (g (j - off))) /\
    (forall j, ~ (lo + off <= j < i + off) -> rd a' j = rd a j))); auto.
  - split; [auto|split; intros; [lia|auto]].
  - intros i a' Hi [L [R1 R2]]. eapply wp_mono; [apply Hb; auto|].
    intros a2 W. split; [rewrite (wr_len _ _ _ _ W); auto|split].
    + intros j Hj. rewrite (rd_wr _ _ _ _ j W). destruct (j =? i + off) eqn:E.
      * apply Z.eqb_eq in E. subst. f_equal. f_equal. lia.
      * apply Z.eqb_neq in E. apply R1; lia.
    + intros j Hj. rewrite (rd_wr _ _ _ _ j W). destruct (j =? i + off) eqn:E.
      * apply Z.eqb_eq in E. lia.
      * apply Z.eqb_neq in E. apply R2; lia.
  - intros a' [L [R1 R2]]. apply HQ; auto.
Qed.

(** ** Vectors: a block of length n with cell i holding [f i] *)

Definition is_vec {A} (a : arr A) (n : Z) (f : Z -> A) : Prop :=
  zlen a = n /\ forall i, 0 <= i < n -> rd a i = Ok (f i).

Lemma is_vec_ext {A} (a : arr A) n f g :
  is_vec a n f -> (forall i, 0 <= i < n -> f i = g i) -> is_vec a n g.
Proof. intros [L R] H. split; auto. intros i Hi. rewrite <- H by auto. auto. Qed.

Lemma is_vec_full {A} (l : list A) d : is_vec (full l) (zlen l) (fun i => nth (Z.to_nat i) l d).
Proof. split; [apply zlen_full|]. intros; now apply rd_full_nth. Qed.

(** ** Tactics *)

(** Prove a read from some hypothesis of the context, solving range conditions by [lia]. *)
Ltac rd_tac :=
  solve [ eassumption
        | match goal with
          | H : is_vec ?a _ _ |- rd ?a _ = Ok _ => eapply (proj2 H); lia
          | H : context[rd ?a _ = Ok _] |- rd ?a _ = Ok _ => eapply H; lia
          end
        | match goal with H : _ |- _ => eapply H; lia end ].

Ltac wrd := eapply wp_rd; [rd_tac|].
Ltac wb := apply wp_bind.
Ltac wok := apply wp_ok.

Ltac zcase :=
  match goal with
  | |- context[?a =? ?b] => destruct (Z.eqb_spec a b)
  | |- context[?a <? ?b] => destruct (Z.ltb_spec a b)
  | |- context[?a <=? ?b] => destruct (Z.leb_spec a b)
  | H : context[?a =? ?b] |- _ => destruct (Z.eqb_spec a b)
  | H : context[?a <? ?b] |- _ => destruct (Z.ltb_spec a b)
  | H : context[?a <=? ?b] |- _ => destruct (Z.leb_spec a b)
  end.
