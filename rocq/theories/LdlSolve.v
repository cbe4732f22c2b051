(** The triangular solves and permutations: generic functional meaning. *)
From Coq Require Import ZArith List Lia Bool.
From Verif Require Import Res Arith Lists MSparse Csc SemVec MLdl LdlSym.
Import ListNotations.
Open Scope Z_scope.
Open Scope res_scope.

Section WithArith.
Variable A : Arith.
Notation F := (car A).
Notation zero := (f0 A).

(** One column of the forward solve, seen at row [r]. *)
Definition lstep (l : list (Z * F)) (xj : F) (r : Z) (acc : F) : F :=
  fold_left (fun acc e => if fst e =? r then fsub A acc (fmul A (snd e) xj) else acc) l acc.

Definition lsolveF (lc : cols F) (m : Z) (b : Z -> F) : Z -> F :=
  fold_left (fun X j r => lstep (lc j) (X j) r (X r)) (zr 0 m) b.

Definition dsolveF (x d : Z -> F) (j : Z) : F := match fdiv A (x j) (d j) with Ok q => q | _ => zero end.

(** One column of the backward solve. *)
Definition ltstep (l : list (Z * F)) (X : Z -> F) (acc : F) : F :=
  fold_left (fun acc e => fsub A acc (fmul A (snd e) (X (fst e)))) l acc.

Definition ltsolveF (lc : cols F) (n m : Z) (b : Z -> F) : Z -> F :=
  fold_left (fun X t r => if r =? n - 1 - t then ltstep (lc r) X (X r) else X r) (zr 0 m) b.

(** Strictly lower triangular columns. *)
Definition lower (n : Z) (lc : cols F) : Prop :=
  forall j r v, 0 <= j < n -> In (r, v) (lc j) -> j < r < n.

Lemma lstep_out l xj r acc : (forall e, In e l -> fst e <> r) -> lstep l xj r acc = acc.
Proof.
  revert acc. unfold lstep. induction l as [|e l IH]; intros acc H; simpl; auto.
  destruct (Z.eqb_spec (fst e) r); [exfalso; eapply H; simpl; eauto|]. apply IH. intros; apply H; simpl; auto.
Qed.

Lemma LDL_lsolve_ok n X Lp Li Lx lc b :
  0 <= n -> Csc Lp Li Lx n lc -> lower n lc -> is_vec X n b ->
  wp (LDL_lsolve A n X Lp Li Lx) (fun X' => is_vec X' n (lsolveF lc n b)).
Proof.
  intros Hn C HL HX. unfold LDL_lsolve.
  apply (wp_for_le (fun m X' => is_vec X' n (lsolveF lc m b))); auto.
  intros j X1 Hj [L R].
  wb. eapply wp_rd; [apply (csc_jc _ _ _ _ _ C); lia|].
  wb. eapply wp_rd; [apply (csc_jc _ _ _ _ _ C); lia|].
  set (x := lsolveF lc j b) in *.
  eapply (wp_col _ _ _ _ _ j (fun done X2 => zlen X2 = n /\
     forall r, 0 <= r < n -> rd X2 r = Ok (lstep done (x j) r (x r)))); eauto.
  - intros done r v rest X2 E Er Ev [L2 R2].
    assert (Hr : j < r < n) by (eapply HL; [exact Hj|rewrite E; apply in_elt]).
    wb. eapply wp_rd; [exact Er|]. wb. eapply wp_rd; [apply R2; lia|].
    wb. eapply wp_rd; [exact Ev|]. wb. eapply wp_rd; [apply R2; lia|].
    rewrite (lstep_out done (x j) j).
    2:{ intros [r' v'] He. simpl. assert (j < r' < n); [|lia]. eapply HL; [exact Hj|]. rewrite E. apply in_or_app. eauto. }
    apply wp_wr; [lia|]. intros a' L' R'. split; [lia|]. intros i Hi. rewrite R'.
    unfold lstep. rewrite fold_left_app. simpl. rewrite Z.eqb_sym.
    destruct (Z.eqb_spec r i); [subst; reflexivity|]. apply R2; auto.
  - intros X2 [L2 R2]. split; auto. intros i Hi. rewrite R2 by auto. unfold lsolveF.
    rewrite zr_snoc, fold_left_app by lia. reflexivity.
Qed.

Lemma LDL_dsolve_ok n X D x d :
  0 <= n -> is_vec X n x -> vec D n d -> (forall j, 0 <= j < n -> exists q, fdiv A (x j) (d j) = Ok q) ->
  wp (LDL_dsolve A n X D) (fun X' => is_vec X' n (dsolveF x d)).
Proof.
  intros Hn [L R] HD HQ. unfold LDL_dsolve. apply (wp_fill (dsolveF x d) 0 0 n); try lia.
  - intros i a' Hi L' R1 R2. wb. eapply wp_rd; [rewrite R2 by lia; apply R; lia|].
    wb. eapply wp_rd; [apply HD; auto|]. unfold dsolveF. destruct (HQ i Hi) as [q E]. rewrite E. simpl.
    rewrite Z.add_0_r. apply wp_wr_eq. lia.
  - intros a' L' R1 _. split; [lia|]. intros i Hi. rewrite R1 by lia. f_equal. f_equal. lia.
Qed.

Lemma LDL_ltsolve_ok n X Lp Li Lx lc b :
  0 <= n -> Csc Lp Li Lx n lc -> lower n lc -> is_vec X n b ->
  wp (LDL_ltsolve A n X Lp Li Lx) (fun X' => is_vec X' n (ltsolveF lc n n b)).
Proof.
  intros Hn C HL HX. unfold LDL_ltsolve.
  apply (wp_for_le (fun m X' => is_vec X' n (ltsolveF lc n m b))); auto.
  intros t X1 Ht [L R]. set (j := n - 1 - t). assert (Hj : 0 <= j < n) by (unfold j; lia). cbv zeta.
  wb. eapply wp_rd; [apply (csc_jc _ _ _ _ _ C); lia|].
  wb. eapply wp_rd; [apply (csc_jc _ _ _ _ _ C); lia|].
  set (x := ltsolveF lc n t b) in *.
  eapply (wp_col _ _ _ _ _ j (fun done X2 => zlen X2 = n /\
     forall r, 0 <= r < n -> rd X2 r = Ok (if r =? j then ltstep done x (x r) else x r))); eauto.
  - split; auto. intros r Hr. simpl. rewrite R by auto. destruct (r =? j); auto.
  - intros done r v rest X2 E Er Ev [L2 R2].
    assert (Hr : j < r < n) by (eapply HL; [exact Hj|rewrite E; apply in_elt]).
    wb. eapply wp_rd; [apply R2; lia|]. wb. eapply wp_rd; [exact Ev|].
    wb. eapply wp_rd; [exact Er|]. wb. eapply wp_rd; [apply R2; lia|].
    rewrite Z.eqb_refl. destruct (Z.eqb_spec r j); [lia|].
    apply wp_wr; [lia|]. intros a' L' R'. split; [lia|]. intros i Hi. rewrite R'.
    destruct (Z.eqb_spec i j).
    + subst i. unfold ltstep. rewrite fold_left_app. reflexivity.
    + rewrite R2 by auto. destruct (Z.eqb_spec i j); [lia|auto].
  - intros X2 [L2 R2]. split; auto. intros i Hi. rewrite R2 by auto. unfold ltsolveF.
    rewrite zr_snoc, fold_left_app by lia. cbn [fold_left]. fold (ltsolveF lc n t b). fold x. fold j.
    destruct (Z.eqb_spec i j); [subst i; reflexivity|reflexivity].
Qed.

Lemma LDL_perm_ok n X B P Pf b :
  0 <= n -> zlen X = n -> vec B n b -> vec P n Pf -> (forall k, 0 <= k < n -> 0 <= Pf k < n) ->
  wp (LDL_perm A n X B P) (fun X' => is_vec X' n (fun j => b (Pf j))).
Proof.
  intros Hn L HB HP HR. apply fill_ok; auto.
  intros i a' Hi. rewrite (HP i Hi). simpl. rewrite (HB (Pf i)) by auto. reflexivity.
Qed.

Lemma LDL_permt_ok n X B P Pf Qf b :
  0 <= n -> zlen X = n -> vec B n b -> vec P n Pf -> isperm n Pf Qf ->
  wp (LDL_permt A n X B P) (fun X' => is_vec X' n (fun a => b (Qf a))).
Proof.
  intros Hn L HB HP HI. unfold LDL_permt.
  apply (wp_for_le (fun k X' => zlen X' = n /\ forall j, 0 <= j < k -> rd X' (Pf j) = Ok (b j))); auto.
  - split; auto. intros; lia.
  - intros k X' Hk [L' R]. wb. eapply wp_rd; [apply HP; auto|]. wb. eapply wp_rd; [apply HB; auto|].
    pose proof (pf_range _ _ _ HI k Hk).
    apply wp_wr; [lia|]. intros a' L2 R2. split; [lia|]. intros j Hj. rewrite R2.
    destruct (Z.eqb_spec (Pf j) (Pf k)) as [E|E].
    + f_equal. f_equal. rewrite <- (qf_pf _ _ _ HI j), <- (qf_pf _ _ _ HI k), E by lia. reflexivity.
    + apply R. destruct (Z.eq_dec j k); [subst; congruence|lia].
  - intros X' [L' R]. split; auto. intros a Ha. rewrite <- (pf_qf _ _ _ HI a Ha) at 1.
    apply R. apply (qf_range _ _ _ HI a Ha).
Qed.

End WithArith.
