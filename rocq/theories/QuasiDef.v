(** Pivots of strongly convex problems: mathematics only. *)
From Coq Require Import ZArith Reals List Lia Lra.
From Verif Require Import Lists QpSpec StepSpec StepFacts PointR StepUniq.
Import ListNotations.
Open Scope Z_scope.
Open Scope R_scope.

(** The quadratic form of P is at least [lam] times the squared norm. *)
Definition strongly_convex (Q : QPdata) (lam : R) : Prop :=
  forall v, lam * Sum (dn Q) (fun i => v i * v i) <= Sum (dn Q) (fun i => v i * Sum (dn Q) (fun j => dP Q i j * v j)).

(** ** A vector that isolates one pivot *)

Lemma Sum_change N f v i0 c : (0 <= i0 < N)%Z ->
  Sum N (fun j => f j * (if (j =? i0)%Z then c else v j)) = Sum N (fun j => f j * v j) + f i0 * (c - v i0).
Proof.
  intros Hi. assert (E : Sum N (fun j => if (j =? i0)%Z then f j * (c - v j) else 0) = f i0 * (c - v i0)).
  { rewrite (Sum_one N _ i0 Hi); [rewrite Z.eqb_refl; reflexivity|]. intros i _ Hne. destruct (Z.eqb_spec i i0); [contradiction|reflexivity]. }
  rewrite <- E, <- Sum_plus. apply Sum_ext. intros j _. destruct (Z.eqb_spec j i0) as [->|]; ring.
Qed.

Section Pivot.
Variables (N : Z) (L : Z -> Z -> R).
Hypothesis U1 : forall i, (0 <= i < N)%Z -> L i i = 1.
Hypothesis U2 : forall i j, (0 <= i < N)%Z -> (i < j < N)%Z -> L i j = 0.

(** L' v = e_k *)
Lemma upper_solve k : (0 <= k < N)%Z -> exists v, v k = 1 /\ (forall j, (k < j < N)%Z -> v j = 0) /\
  forall i, (0 <= i < N)%Z -> Sum N (fun j => L j i * v j) = if (i =? k)%Z then 1 else 0.
Proof.
  intros Hk.
  assert (G : forall t, (0 <= t)%Z -> (t <= k)%Z -> exists v, v k = 1 /\ (forall j, (k < j < N)%Z -> v j = 0) /\ (forall j, (j < k - t)%Z -> v j = 0) /\
    forall i, (k - t <= i < N)%Z -> Sum N (fun j => L j i * v j) = if (i =? k)%Z then 1 else 0).
  { apply (zr_ind (fun t => (t <= k)%Z -> exists v, v k = 1 /\ (forall j, (k < j < N)%Z -> v j = 0) /\ (forall j, (j < k - t)%Z -> v j = 0) /\
      forall i, (k - t <= i < N)%Z -> Sum N (fun j => L j i * v j) = if (i =? k)%Z then 1 else 0)).
    - intros _. exists (fun j => if (j =? k)%Z then 1 else 0). rewrite Z.eqb_refl. split; auto.
      split; [intros j Hj; destruct (Z.eqb_spec j k); [lia|auto]|]. split; [intros j Hj; destruct (Z.eqb_spec j k); [lia|auto]|].
      intros i Hi. rewrite (Sum_one N _ k Hk).
      + rewrite Z.eqb_refl. destruct (Z.eqb_spec i k) as [->|]; [rewrite U1 by auto; ring|rewrite U2 by lia; ring].
      + intros j Hj Hne. destruct (Z.eqb_spec j k); [contradiction|ring].
    - intros t Ht IH Htk. destruct IH as [v [V1 [V2 [V3 V4]]]]; [lia|]. set (i0 := (k - (t + 1))%Z).
      exists (fun j => if (j =? i0)%Z then - Sum N (fun j => L j i0 * v j) else v j). split; [|split; [|split]].
      + destruct (Z.eqb_spec k i0); [unfold i0 in *; lia|exact V1].
      + intros j Hj. destruct (Z.eqb_spec j i0); [unfold i0 in *; lia|auto].
      + intros j Hj. destruct (Z.eqb_spec j i0); [unfold i0 in *; lia|]. apply V3. lia.
      + intros i Hi. rewrite (Sum_change N (fun j => L j i) v i0) by (unfold i0; lia). rewrite (V3 i0) by (unfold i0; lia).
        destruct (Z.eq_dec i i0) as [->|Hne].
        * rewrite U1 by (unfold i0; lia). destruct (Z.eqb_spec i0 k); [unfold i0 in *; lia|]. ring.
        * rewrite V4 by (unfold i0 in *; lia). rewrite (U2 i0 i) by (unfold i0 in *; lia). ring. }
  destruct (G k ltac:(lia) ltac:(lia)) as [v [V1 [V2 [_ V4]]]]. exists v. split; auto. split; auto. intros i Hi. apply V4. lia.
Qed.

Variables (K : Z -> Z -> R) (D e : Z -> R).
Hypothesis U3 : forall i k, (0 <= i < N)%Z -> (0 <= k < N)%Z ->
  K i k + (if (i =? k)%Z then e k else 0) = Sum N (fun j => L i j * D j * L k j).

(** (K + E) v has the pivot at k and zeros before. *)
Lemma pivot_vector k : (0 <= k < N)%Z -> exists v, v k = 1 /\ (forall j, (k < j < N)%Z -> v j = 0) /\
  forall i, (0 <= i <= k)%Z -> Sum N (fun c => K i c * v c) + e i * v i = if (i =? k)%Z then D k else 0.
Proof.
  intros Hk. destruct (upper_solve k Hk) as [v [V1 [V2 V3]]]. exists v. split; auto. split; auto. intros i Hi.
  assert (E : Sum N (fun c => Sum N (fun j => L i j * D j * L c j) * v c) = L i k * D k).
  { rewrite (Sum_ext N _ (fun c => Sum N (fun j => L i j * D j * (L c j * v c))))
      by (intros c Hc; rewrite <- Sum_scal_r; apply Sum_ext; intros; ring).
    rewrite Sum_swap. rewrite (Sum_ext N _ (fun j => L i j * D j * (if (j =? k)%Z then 1 else 0)))
      by (intros j Hj; rewrite Sum_scal, V3 by auto; reflexivity).
    rewrite (Sum_one N _ k Hk); [rewrite Z.eqb_refl; ring|]. intros j Hj Hne. destruct (Z.eqb_spec j k); [contradiction|ring]. }
  rewrite (Sum_ext N _ (fun c => K i c * v c + (if (c =? i)%Z then e i * v i else 0))) in E.
  - rewrite Sum_plus in E. rewrite (Sum_one N (fun c => if (c =? i)%Z then e i * v i else 0) i) in E; [|lia|].
    + rewrite Z.eqb_refl in E. rewrite E. destruct (Z.eqb_spec i k) as [->|]; [rewrite U1 by auto; ring|rewrite U2 by lia; ring].
    + intros c Hc Hne. destruct (Z.eqb_spec c i); [contradiction|reflexivity].
  - intros c Hc. rewrite <- U3 by lia. destruct (Z.eqb_spec i c) as [->|Hne].
    + rewrite Z.eqb_refl. ring.
    + destruct (Z.eqb_spec c i); [subst; contradiction|]. ring.
Qed.

(** Weighted with signs, only the pivot remains. *)
Lemma pivot_form k (sg : Z -> R) : (0 <= k < N)%Z -> exists v, v k = 1 /\ (forall j, (k < j < N)%Z -> v j = 0) /\
  Sum N (fun i => sg i * v i * Sum N (fun c => K i c * v c)) + Sum N (fun i => sg i * e i * (v i * v i)) = sg k * D k.
Proof.
  intros Hk. destruct (pivot_vector k Hk) as [v [V1 [V2 V3]]]. exists v. split; auto. split; auto.
  rewrite <- Sum_plus. rewrite (Sum_one N _ k Hk).
  - specialize (V3 k ltac:(lia)). rewrite Z.eqb_refl in V3. rewrite V1 in *. rewrite <- V3. ring.
  - intros i Hi Hne. destruct (Z.lt_ge_cases k i); [rewrite V2 by lia; ring|].
    specialize (V3 i ltac:(lia)). destruct (Z.eqb_spec i k); [contradiction|].
    replace (sg i * v i * Sum N (fun c => K i c * v c) + sg i * e i * (v i * v i))
      with (sg i * v i * (Sum N (fun c => K i c * v c) + e i * v i)) by ring. rewrite V3. ring.
Qed.
End Pivot.

Lemma order_inverse N ord : order_of N ord -> exists inv, forall i, (0 <= i < N)%Z -> inv (ord i) = i.
Proof.
  intros [H1 H2]. exists (fun a => match find (fun i => (ord i =? a)%Z) (zr 0 N) with Some i => i | None => 0%Z end).
  intros i Hi. destruct (find (fun j => (ord j =? ord i)%Z) (zr 0 N)) as [j|] eqn:E.
  - apply find_some in E. destruct E as [Hj E]. apply in_zr in Hj. apply Z.eqb_eq in E. apply H2; auto.
  - assert (Hin : In i (zr 0 N)) by (apply in_zr; auto). pose proof (find_none _ _ E i Hin) as C. cbv beta in C.
    rewrite Z.eqb_refl in C. discriminate C.
Qed.

(** ** The KKT matrix with the signs of its blocks *)

Section Form.
Variable Q : QPdata.
Hypothesis Dn : (0 <= dn Q)%Z.
Hypothesis Dm : (0 <= dm Q)%Z.
Hypothesis Dp : (0 <= dp Q)%Z.
Notation n := (dn Q).
Notation m := (dm Q).
Notation p := (dp Q).
Notation N := (n + p + m)%Z.

Definition block_sign (a : Z) : R := if (a <? n)%Z then 1 else -1.

Lemma signed_form w u : Sum N (fun a => block_sign a * u a * Sum N (fun c => kkt_matrix Q w a c * u c)) =
  Sum n (fun i => u i * Sum n (fun j => dP Q i j * u j)) + Sum m (fun i => w i * (u (n + p + i)%Z * u (n + p + i)%Z)).
Proof.
  set (x := u). set (y := fun k => u (n + k)%Z). set (z := fun i => u (n + p + i)%Z).
  assert (ES : forall a, (0 <= a < N)%Z -> u a = stack Q x y z a).
  { intros a Ha. unfold stack, x, y, z. destruct (Z.ltb_spec a n); auto. destruct (Z.ltb_spec a (n + p)); f_equal; lia. }
  rewrite (Sum_ext N _ (fun a => block_sign a * u a * Sum N (fun c => kkt_matrix Q w a c * stack Q x y z c))).
  2:{ intros a Ha. f_equal. apply Sum_ext. intros c Hc. rewrite <- ES by auto. reflexivity. }
  rewrite split3 by auto.
  rewrite (Sum_ext n _ (fun j => x j * Sum n (fun c => dP Q j c * x c) + (x j * Sum p (fun k => dA Q k j * y k) + x j * Sum m (fun i => dG Q i j * z i)))).
  2:{ intros j Hj. rewrite app_x by auto. unfold block_sign. destruct (Z.ltb_spec j n); [|lia]. fold x. ring. }
  rewrite (Sum_ext p _ (fun k => - (y k * Sum n (fun c => dA Q k c * x c)))).
  2:{ intros k Hk. rewrite app_y by auto. unfold block_sign. destruct (Z.ltb_spec (n + k) n); [lia|]. fold (y k). unfold y. ring. }
  rewrite (Sum_ext m _ (fun i => w i * (z i * z i) - z i * Sum n (fun c => dG Q i c * x c))).
  2:{ intros i Hi. rewrite app_z by auto. unfold block_sign. destruct (Z.ltb_spec (n + p + i) n); [lia|]. unfold z. ring. }
  rewrite !Sum_plus, Sum_minus, Sum_opp.
  assert (X : forall k (M : Z -> Z -> R) t, Sum n (fun j => x j * Sum k (fun i => M i j * t i)) = Sum k (fun i => t i * Sum n (fun j => M i j * x j))).
  { intros k M t. rewrite (Sum_ext n _ (fun j => Sum k (fun i => x j * (M i j * t i)))) by (intros; symmetry; apply Sum_scal).
    rewrite Sum_swap. apply Sum_ext. intros i Hi. rewrite <- Sum_scal. apply Sum_ext. intros; ring. }
  rewrite (X p (dA Q) y), (X m (dG Q) z). unfold x, z. ring.
Qed.

Variables (w : Z -> R) (lam : R) (ord : Z -> Z) (e : Z -> R).
Hypothesis Hlam : 1 / 100000000000000 < lam.
Hypothesis HP : strongly_convex Q lam.
Hypothesis Hw : forall i, (0 <= i < m)%Z -> 1 / 100000000000000 < w i.
Hypothesis HO : order_of N ord.

Definition tiny_change (x : R) : Prop := x = 0 \/ - (1 / 10000000) <= x <= - (1 / 10000000) + 1 / 100000000000000.

Lemma tiny_nonpos x : tiny_change x -> x <= 0.
Proof. intros [->|H]; lra. Qed.

(** Only equality rows are regularised, and always downwards. *)
Theorem quasidefinite : regularised N (kkt_matrix Q w) ord e -> forall a, (0 <= a < N)%Z ->
  ((a < n \/ n + p <= a)%Z -> e a = 0) /\ tiny_change (e a).
Proof.
  intros [L [D [U1 [U2 [U3 U4]]]]]. pose proof HO as [O1 O2]. destruct (order_inverse N ord HO) as [inv HI].
  assert (G : forall k, (0 <= k)%Z -> (k < N)%Z -> ((ord k < n \/ n + p <= ord k)%Z -> e (ord k) = 0) /\ tiny_change (e (ord k))).
  { apply (Zlt_lower_bound_ind (fun k => (k < N)%Z -> ((ord k < n \/ n + p <= ord k)%Z -> e (ord k) = 0) /\ tiny_change (e (ord k))) 0).
    intros k IH Hk0 Hk.
    destruct (pivot_form N L U1 U2 (fun i c => kkt_matrix Q w (ord i) (ord c)) D (fun i => e (ord i)) U3 k (fun i => block_sign (ord i)) ltac:(lia))
      as [v [V1 [V2 V3]]].
    set (u := fun a => v (inv a)).
    assert (EU : forall c, (0 <= c < N)%Z -> u (ord c) = v c) by (intros c Hc; unfold u; rewrite HI by auto; reflexivity).
    assert (F1 : Sum N (fun i => block_sign (ord i) * v i * Sum N (fun c => kkt_matrix Q w (ord i) (ord c) * v c)) =
      Sum N (fun a => block_sign a * u a * Sum N (fun c => kkt_matrix Q w a c * u c))).
    { rewrite (Sum_order N ord (fun a => block_sign a * u a * Sum N (fun c => kkt_matrix Q w a c * u c)) HO).
      apply Sum_ext. intros i Hi. rewrite EU by auto. f_equal. rewrite (Sum_order N ord (fun c => kkt_matrix Q w (ord i) c * u c) HO).
      apply Sum_ext. intros c Hc. rewrite EU by auto. reflexivity. }
    rewrite F1, signed_form in V3. clear F1.
    (* the changes made before k add to the form *)
    assert (F2 : Sum N (fun i => block_sign (ord i) * e (ord i) * (v i * v i)) >= block_sign (ord k) * e (ord k)).
    { assert (E : Sum N (fun i => if (i =? k)%Z then block_sign (ord k) * e (ord k) else 0) = block_sign (ord k) * e (ord k)).
      { rewrite (Sum_one N _ k) by (lia || (intros i _ Hne; destruct (Z.eqb_spec i k); [contradiction|reflexivity])).
        rewrite Z.eqb_refl. reflexivity. }
      rewrite <- E. apply Rle_ge, Sum_le. intros i Hi. destruct (Z.eqb_spec i k) as [->|Hne]; [rewrite V1; lra|].
      destruct (Z.lt_ge_cases k i); [rewrite V2 by lia; lra|]. destruct (IH i ltac:(lia) ltac:(lia)) as [I1 I2].
      unfold block_sign. destruct (Z.ltb_spec (ord i) n); [rewrite I1 by lia; lra|].
      apply tiny_nonpos in I2. pose proof (Rle_0_sqr (v i)) as Hs. unfold Rsqr in Hs.
      assert (0 <= - e (ord i) * (v i * v i)) by (apply Rmult_le_pos; lra). lra. }
    pose proof (HP u) as F3.
    assert (P1 : forall i, (0 <= i < n)%Z -> 0 <= u i * u i) by (intros; apply Rle_0_sqr).
    assert (P2 : forall i, (0 <= i < m)%Z -> 0 <= w i * (u (n + p + i)%Z * u (n + p + i)%Z)).
    { intros i Hi. specialize (Hw i Hi). apply Rmult_le_pos; [lra|apply Rle_0_sqr]. }
    pose proof (Sum_nonneg n _ P1) as S1. pose proof (Sum_nonneg m _ P2) as S2.
    assert (S1' : 0 <= lam * Sum n (fun i => u i * u i)) by (apply Rmult_le_pos; lra).
    assert (EK : u (ord k) = 1) by (rewrite EU by lia; exact V1). pose proof (O1 k ltac:(lia)) as Hok.
    destruct (U4 k ltac:(lia)) as [W1 W2]. set (d := D k - e (ord k)) in *.
    assert (F4 : block_sign (ord k) * d >= lam * Sum n (fun i => u i * u i) + Sum m (fun i => w i * (u (n + p + i)%Z * u (n + p + i)%Z))).
    { unfold d. rewrite Rmult_minus_distr_l. lra. }
    destruct (Z.lt_ge_cases (ord k) n) as [C|C].
    - assert (T : lam * 1 <= lam * Sum n (fun i => u i * u i)).
      { apply Rmult_le_compat_l; [lra|]. pose proof (Sum_ge_term n _ (ord k) P1 ltac:(lia)) as T. cbv beta in T. rewrite EK in T. lra. }
      unfold block_sign in F4. destruct (Z.ltb_spec (ord k) n); [|lia].
      assert (E : e (ord k) = 0) by (apply W1; rewrite Rabs_pos_eq; lra). rewrite E. split; auto. left. reflexivity.
    - unfold block_sign in F4. destruct (Z.ltb_spec (ord k) n); [lia|]. destruct (Z.lt_ge_cases (ord k) (n + p)) as [C2|C2].
      + split; [lia|]. assert (Hd : d <= 0) by lra. destruct (Rle_dec (Rabs d) (1 / 100000000000000)) as [Hs|Hs].
        * right. specialize (W2 Hs). destruct (Rle_dec d 0); [|contradiction]. rewrite Rabs_left1 in Hs by auto.
          assert (E : e (ord k) = D k - d) by (unfold d; ring). rewrite E, W2. lra.
        * left. apply W1. lra.
      + assert (T : w (ord k - (n + p))%Z <= Sum m (fun i => w i * (u (n + p + i)%Z * u (n + p + i)%Z))).
        { pose proof (Sum_ge_term m _ (ord k - (n + p))%Z P2 ltac:(lia)) as T. cbv beta in T.
          replace (n + p + (ord k - (n + p)))%Z with (ord k) in T by lia. rewrite EK in T. lra. }
        specialize (Hw (ord k - (n + p))%Z ltac:(lia)).
        assert (E : e (ord k) = 0) by (apply W1; rewrite Rabs_left; lra). rewrite E. split; auto. left. reflexivity. }
  intros a Ha. destruct (order_onto N ord a HO Ha) as [i [Hi <-]]. apply G; lia.
Qed.

(** Without equality constraints no pivot is regularised. *)
Theorem quasidefinite_regular : p = 0%Z -> regularised N (kkt_matrix Q w) ord e -> regular_order N (kkt_matrix Q w) ord.
Proof.
  intros Hp HR. pose proof (quasidefinite HR) as HE. destruct HR as [L [D [U1 [U2 [U3 U4]]]]]. pose proof HO as [O1 _].
  assert (E0 : forall k, (0 <= k < N)%Z -> e (ord k) = 0) by (intros k Hk; apply (HE (ord k) (O1 k Hk)); lia).
  exists L, D. split; auto. split; auto. split.
  - intros i k Hi Hk. rewrite <- U3 by auto. rewrite E0 by auto. destruct (i =? k)%Z; ring.
  - intros k Hk. destruct (U4 k Hk) as [_ W2]. rewrite E0 in W2 by auto. cbv zeta in W2. rewrite Rminus_0_r in W2.
    destruct (Rle_dec (Rabs (D k)) (1 / 100000000000000)) as [Hs|Hs]; [|lra]. specialize (W2 Hs). rewrite W2 in Hs.
    destruct (Rle_dec (D k) 0); [rewrite Rabs_left in Hs; lra|rewrite Rabs_pos_eq in Hs; lra].
Qed.
End Form.
