(** Partial correctness: statements about every run that ends normally, without assumptions on inputs. *)
From Coq Require Import ZArith List Lia Bool.
From Verif Require Import Res.
Import ListNotations.
Open Scope Z_scope.
Open Scope res_scope.

Definition pw {A} (m : res A) (Q : A -> Prop) : Prop := forall r, m = Ok r -> Q r.

Lemma pw_ok {A} (x : A) (Q : A -> Prop) : Q x -> pw (Ok x) Q.
Proof. intros H r E. injection E as <-. exact H. Qed.

Lemma pw_any {A} (m : res A) (Q : A -> Prop) : (forall r, m = Ok r -> Q r) -> pw m Q.
Proof. auto. Qed.

Lemma pw_mono {A} (m : res A) (Q Q' : A -> Prop) : pw m Q -> (forall r, Q r -> Q' r) -> pw m Q'.
Proof. intros H K r E. apply K, H, E. Qed.

Lemma pw_bind {A B} (m : res A) (f : A -> res B) (Q : B -> Prop) : pw m (fun x => pw (f x) Q) -> pw (bind m f) Q.
Proof. intros H r E. destruct m as [x| |]; cbn [bind] in E; try discriminate. exact (H x eq_refl r E). Qed.

(** A step whose result is arbitrary. *)
Lemma pw_skip {A B} (m : res A) (f : A -> res B) (Q : B -> Prop) :
  (forall x, m = Ok x -> pw (f x) Q) -> pw (bind m f) Q.
Proof. intros H. apply pw_bind. exact H. Qed.

Lemma pw_forN {S} (Inv : Z -> S -> Prop) (body : Z -> S -> res S) : forall k i s, Inv i s ->
  (forall j s, i <= j < i + Z.of_nat k -> Inv j s -> pw (body j s) (Inv (j + 1))) ->
  pw (forN k i body s) (Inv (i + Z.of_nat k)).
Proof.
  induction k as [|k IH]; intros i s Hs Hb.
  - cbn [forN]. apply pw_ok. replace (i + Z.of_nat 0) with i by lia. exact Hs.
  - cbn [forN]. apply pw_bind. eapply pw_mono; [apply Hb; [lia|exact Hs]|]. intros s1 H1.
    replace (i + Z.of_nat (Datatypes.S k)) with (i + 1 + Z.of_nat k) by lia. apply IH; auto. intros. apply Hb; auto. lia.
Qed.

Lemma pw_for {S} (Inv : Z -> S -> Prop) (body : Z -> S -> res S) lo hi s (Q : S -> Prop) :
  Inv lo s ->
  (forall i s, lo <= i < hi -> Inv i s -> pw (body i s) (Inv (i + 1))) ->
  (forall s, Inv (Z.max lo hi) s -> Q s) ->
  pw (for_ lo hi body s) Q.
Proof.
  intros H0 Hb HQ. unfold for_. eapply pw_mono; [eapply (pw_forN Inv); eauto|].
  - intros j t Hj. apply Hb. lia.
  - intros r H. apply HQ. replace (Z.max lo hi) with (lo + Z.of_nat (Z.to_nat (hi - lo))) by lia. exact H.
Qed.

Lemma pw_for_inv {S} (Inv : S -> Prop) (body : Z -> S -> res S) lo hi s (Q : S -> Prop) :
  Inv s -> (forall i s, lo <= i < hi -> Inv s -> pw (body i s) Inv) -> (forall s, Inv s -> Q s) ->
  pw (for_ lo hi body s) Q.
Proof. intros H0 Hb HQ. apply (pw_for (fun _ => Inv)); auto. Qed.

Lemma pw_wr {A} (a : arr A) i v (Q : arr A -> Prop) :
  (forall a', 0 <= i < zlen a -> zlen a' = zlen a -> (forall j, rd a' j = if j =? i then Ok v else rd a j) -> Q a') ->
  pw (wr a i v) Q.
Proof.
  intros H a' E. apply H; [eapply wr_ok_inv; eauto|eapply wr_len; eauto|]. intros j. eapply rd_wr; eauto.
Qed.

Ltac pskip := apply pw_skip; let x := fresh "x" in let E := fresh "Ex" in intros x E; cbv zeta beta.
