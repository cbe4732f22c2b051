(** AMD_aat counts, and AMD_1 stores, the neighbours of every node in A + A'. *)
From Coq Require Import ZArith List Lia Bool.
From Verif Require Import Res Lists Spec MAmd AmdBase AmdWalk.
Import ListNotations.
Open Scope Z_scope.
Open Scope res_scope.

Definition pairs_ok (n : Z) (l : list (Z * Z)) : Prop := forall i j, In (i, j) l -> 0 <= i < n /\ 0 <= j < n /\ i <> j.

Lemma nb_cons i j l v : nb ((i, j) :: l) v = nb1 v (i, j) ++ nb l v.
Proof. reflexivity. Qed.

Lemma nb1_len v i j : i <> j -> zlen (nb1 v (i, j)) = (if i =? v then 1 else 0) + (if j =? v then 1 else 0).
Proof.
  intros H. unfold nb1. simpl. destruct (Z.eqb_spec i v), (Z.eqb_spec j v); try reflexivity. congruence.
Qed.

Lemma count_ok n l : pairs_ok n l -> forall Len f, is_vec Len n f ->
  wp (foldp count_pair l Len) (fun Len' => is_vec Len' n (fun v => f v + zlen (nb l v))).
Proof.
  induction l as [|[i j] l IH]; intros HP Len f HV.
  - simpl. eapply is_vec_ext; [exact HV|]. intros v Hv. change (f v = f v + 0). lia.
  - destruct (HP i j (or_introl eq_refl)) as [Hi [Hj Ne]]. cbn [foldp]. wb. unfold count_pair.
    wb. apply (is_vec_rd _ _ _ _ _ HV Hi). wb. apply (is_vec_wr _ _ _ _ _ _ HV Hi). intros L1 V1.
    wb. apply (is_vec_rd _ _ _ _ _ V1 Hj). apply (is_vec_wr _ _ _ _ _ _ V1 Hj). intros L2 V2.
    eapply wp_mono; [apply (IH (fun a b H => HP a b (or_intror H)) _ _ V2)|].
    intros L3 V3. eapply is_vec_ext; [exact V3|]. intros v Hv. cbv beta. rewrite nb_cons, zlen_app, nb1_len by auto.
    unfold fup. rewrite (Z.eqb_sym i v), (Z.eqb_sym j v).
    destruct (Z.eqb_spec v j), (Z.eqb_spec v i), (Z.eqb_spec j i); subst; try congruence; lia.
Qed.

(** Where the list of v starts. *)
Definition start (l : list (Z * Z)) (v : Z) : Z := sumz (fun u => zlen (nb l u)) (zr 0 v).

Lemma start_step l v : 0 <= v -> start l (v + 1) = start l v + zlen (nb l v).
Proof. intros H. unfold start. rewrite zr_snoc, sumz_app by lia. simpl. lia. Qed.
Lemma start_mono l a b : 0 <= a <= b -> start l a <= start l b.
Proof. intros H. unfold start. rewrite (zr_app 0 a b), sumz_app by lia.
  assert (0 <= sumz (fun u => zlen (nb l u)) (zr a b)); [|lia]. apply sumz_nonneg. intros; apply zlen_nonneg. Qed.

Section Store.
Variables (n iwlen : Z) (L : list (Z * Z)).
Hypothesis Hn : 0 <= n.
Hypothesis HP : pairs_ok n L.
Hypothesis Hw : start L n <= iwlen.

Definition stored (l : list (Z * Z)) (st : arr Z * arr Z) : Prop :=
  let '(Iw, Sp) := st in
  zlen Iw = iwlen /\ is_vec Sp n (fun v => start L v + zlen (nb l v)) /\
  forall v t, 0 <= v < n -> 0 <= t < zlen (nb l v) -> rd Iw (start L v + t) = Ok (nth (Z.to_nat t) (nb L v) 0).

(** Pushing x on the list of v, with [l] visited so far. *)
Lemma push_ok Iw Sp (c : Z -> Z) v x : zlen Iw = iwlen -> is_vec Sp n (fun u => start L u + c u) ->
  (forall u, 0 <= u < n -> 0 <= c u <= zlen (nb L u)) ->
  (forall u t, 0 <= u < n -> 0 <= t < c u -> rd Iw (start L u + t) = Ok (nth (Z.to_nat t) (nb L u) 0)) ->
  0 <= v < n -> c v < zlen (nb L v) -> nth (Z.to_nat (c v)) (nb L v) 0 = x ->
  wp (a <- rd Sp v ;; Iw <- wr Iw a x ;; Sp <- wr Sp v (a + 1) ;; Ok (Iw, Sp)) (fun '(Iw', Sp') =>
    zlen Iw' = iwlen /\ is_vec Sp' n (fun u => start L u + fup c v (c v + 1) u) /\
    (forall u, 0 <= u < n -> 0 <= fup c v (c v + 1) u <= zlen (nb L u)) /\
    (forall u t, 0 <= u < n -> 0 <= t < fup c v (c v + 1) u -> rd Iw' (start L u + t) = Ok (nth (Z.to_nat t) (nb L u) 0))).
Proof.
  intros LI HV HC HI Hv Hc Ex. pose proof (HC v Hv) as Hcv.
  assert (B : 0 <= start L v /\ start L v + c v < iwlen).
  { split; [change 0 with (start L 0); apply start_mono; lia|].
    pose proof (start_mono L (v + 1) n ltac:(lia)) as M. rewrite start_step in M by lia. lia. }
  wb. apply (is_vec_rd _ _ _ _ _ HV Hv). wb. apply wp_wr; [lia|]. intros Iw1 L1 R1.
  wb. apply (is_vec_wr _ _ _ _ _ _ HV Hv). intros Sp1 V1. wok. split; [lia|]. split; [|split].
  - eapply is_vec_ext; [exact V1|]. intros u Hu. unfold fup. destruct (Z.eqb_spec u v) as [->|]; lia.
  - intros u Hu. unfold fup. destruct (Z.eqb_spec u v) as [->|]; [lia|auto].
  - intros u t Hu Ht. rewrite R1. destruct (Z.eqb_spec (start L u + t) (start L v + c v)) as [E|E].
    + assert (u = v).
      { assert (T : 0 <= t < zlen (nb L u)) by (unfold fup in Ht; pose proof (HC u Hu); destruct (Z.eqb_spec u v) as [->|]; lia).
        destruct (Z.lt_trichotomy u v) as [X|[X|X]]; auto; exfalso.
        - pose proof (start_mono L (u + 1) v ltac:(lia)) as M. rewrite start_step in M by lia. lia.
        - pose proof (start_mono L (v + 1) u ltac:(lia)) as M. rewrite start_step in M by lia. lia. }
      subst u. replace t with (c v) by lia. congruence.
    + apply HI; auto. unfold fup in Ht. destruct (Z.eqb_spec u v) as [->|]; lia.
Qed.

Lemma store_ok : forall l2 l1 st, L = l1 ++ l2 -> stored l1 st -> wp (foldp store_pair l2 st) (stored L).
Proof.
  induction l2 as [|[i j] l2 IH]; intros l1 [Iw Sp] E HS.
  - rewrite app_nil_r in E. subst. exact HS.
  - destruct (HP i j) as [Hi [Hj Ne]]; [rewrite E; apply in_app_iff; right; left; auto|].
    cbn [foldp]. wb. destruct HS as [LI [HV HI]].
    assert (Pre : forall u, nb L u = nb l1 u ++ nb1 u (i, j) ++ nb l2 u).
    { intros u. rewrite E. unfold nb. rewrite flat_map_app. reflexivity. }
    assert (Len : forall u, zlen (nb L u) = zlen (nb l1 u) + ((if i =? u then 1 else 0) + (if j =? u then 1 else 0)) + zlen (nb l2 u)).
    { intros u. rewrite Pre, !zlen_app, nb1_len by auto. lia. }
    assert (Nth : forall u x, nb1 u (i, j) = [x] -> nth (Z.to_nat (zlen (nb l1 u))) (nb L u) 0 = x).
    { intros u x Ex. rewrite Pre, Ex. unfold zlen. rewrite Nat2Z.id, app_nth2, Nat.sub_diag by lia. reflexivity. }
    assert (Ni : nb1 i (i, j) = [j]) by (unfold nb1; simpl; now rewrite Z.eqb_refl).
    assert (Nj : nb1 j (i, j) = [i]) by (unfold nb1; simpl; destruct (Z.eqb_spec i j); [congruence|now rewrite Z.eqb_refl]).
    unfold store_pair.
    assert (X : forall Q, wp (r <- (a <- rd Sp i ;; Iw <- wr Iw a j ;; Sp <- wr Sp i (a + 1) ;; Ok (Iw, Sp)) ;;
        let '(Iw, Sp) := r in a <- rd Sp j ;; Iw <- wr Iw a i ;; Sp <- wr Sp j (a + 1) ;; Ok (Iw, Sp)) Q ->
      wp (a <- rd Sp i ;; Iw <- wr Iw a j ;; Sp <- wr Sp i (a + 1) ;;
          b <- rd Sp j ;; Iw <- wr Iw b i ;; Sp <- wr Sp j (b + 1) ;; Ok (Iw, Sp)) Q).
    { intros Q. destruct (rd Sp i) as [a| |]; simpl; auto. destruct (wr Iw a j); simpl; auto. destruct (wr Sp i (a + 1)); simpl; auto. }
    apply X. wb.
    pose proof (Z.eqb_refl i) as Ri. pose proof (Z.eqb_refl j) as Rj.
    eapply wp_mono.
    { apply (push_ok Iw Sp (fun u => zlen (nb l1 u)) i j); auto.
      - intros u Hu. rewrite Len. pose proof (zlen_nonneg (nb l1 u)). pose proof (zlen_nonneg (nb l2 u)).
        destruct (i =? u), (j =? u); lia.
      - rewrite Len, Ri. pose proof (zlen_nonneg (nb l2 i)). destruct (j =? i); lia. }
    intros [Iw1 Sp1] [L1 [V1 [C1 I1]]].
    eapply wp_mono.
    { apply (push_ok Iw1 Sp1 _ j i L1 V1 C1 I1 Hj).
      - rewrite fup_ne by congruence. rewrite Len, Rj. pose proof (zlen_nonneg (nb l2 j)). destruct (i =? j); lia.
      - rewrite fup_ne by congruence. apply Nth; auto. }
    intros [Iw2 Sp2] [L2 [V2 [C2 I2]]]. apply (IH (l1 ++ [(i, j)])); [rewrite <- app_assoc; auto|].
    assert (Cn : forall u, 0 <= u < n ->
      fup (fup (fun u => zlen (nb l1 u)) i (zlen (nb l1 i) + 1)) j (fup (fun u => zlen (nb l1 u)) i (zlen (nb l1 i) + 1) j + 1) u =
      zlen (nb (l1 ++ [(i, j)]) u)).
    { intros u Hu. rewrite nb_snoc, zlen_app. unfold fup. rewrite (Z.eqb_sym i u), (Z.eqb_sym j u).
      destruct (Z.eqb_spec u j), (Z.eqb_spec u i), (Z.eqb_spec j i); subst; try congruence; unfold zlen; cbn [length]; lia. }
    split; auto. split.
    + eapply is_vec_ext; [exact V2|]. intros u Hu. cbv beta. f_equal. apply Cn. auto.
    + intros u t Hu Ht. apply I2; auto. rewrite Cn; auto.
Qed.
End Store.

