(** Regular orders determine the step and the starting point: mathematics only. *)
From Coq Require Import ZArith Reals List Lia Lra Permutation.
From Verif Require Import Lists QpSpec StepSpec StepFacts PointR.
Import ListNotations.
Open Scope Z_scope.
Open Scope R_scope.

(** ** A matrix with a regular order is injective *)

Lemma Sum_order N ord f : order_of N ord -> Sum N f = Sum N (fun k => f (ord k)).
Proof.
  intros [H1 H2]. unfold Sum. apply (sumr_reindex f ord (zr 0 N) (zr 0 N)).
  apply NoDup_Permutation_bis.
  - assert (G : forall l, NoDup l -> (forall k, In k l -> (0 <= k < N)%Z) -> NoDup (map ord l)).
    { induction l as [|k l IH]; intros ND HB; simpl; [constructor|]. inversion ND; subst. constructor.
      - intros H. apply in_map_iff in H. destruct H as [k' [Ek Hk']].
        apply H2 in Ek; [subst; tauto|apply HB; simpl; auto|apply HB; simpl; auto].
      - apply IH; auto. intros; apply HB; simpl; auto. }
    apply G; [apply NoDup_zr|]. intros k Hk. apply in_zr in Hk. auto.
  - rewrite map_length. lia.
  - intros a Ha. apply in_map_iff in Ha. destruct Ha as [k [<- Hk]]. apply in_zr in Hk. apply in_zr. auto.
Qed.

Lemma Sum_one N f j : (0 <= j < N)%Z -> (forall i, (0 <= i < N)%Z -> i <> j -> f i = 0) -> Sum N f = f j.
Proof.
  intros Hj H. unfold Sum. rewrite (sumr_ext f (fun x => if (x =? j)%Z then f x else 0)).
  - apply (sumr_delta j f); [apply NoDup_zr|apply in_zr; auto].
  - intros x Hx. apply in_zr in Hx. destruct (Z.eqb_spec x j); auto.
Qed.

Lemma order_onto N ord a : order_of N ord -> (0 <= a < N)%Z -> exists i, (0 <= i < N)%Z /\ ord i = a.
Proof.
  intros HO Ha. destruct (in_dec Z.eq_dec a (map ord (zr 0 N))) as [Hin|Hno].
  - apply in_map_iff in Hin. destruct Hin as [i [E Hi]]. apply in_zr in Hi. exists i. auto.
  - exfalso. pose proof (Sum_order N ord (fun x => if (x =? a)%Z then 1 else 0) HO) as E.
    rewrite (Sum_one N _ a) in E; auto.
    + rewrite Z.eqb_refl in E. rewrite Sum_zero in E; [lra|]. intros k Hk. destruct (Z.eqb_spec (ord k) a); auto.
      exfalso. apply Hno. apply in_map_iff. exists k. split; auto. apply in_zr. auto.
    + intros i _ Hne. destruct (Z.eqb_spec i a); [tauto|reflexivity].
Qed.

Lemma lower_inj N (L : Z -> Z -> R) y : (forall i, (0 <= i < N)%Z -> L i i = 1) ->
  (forall i j, (0 <= i < N)%Z -> (i < j < N)%Z -> L i j = 0) ->
  (forall i, (0 <= i < N)%Z -> Sum N (fun j => L i j * y j) = 0) -> forall i, (0 <= i < N)%Z -> y i = 0.
Proof.
  intros H1 H2 H3.
  assert (G : forall k, (0 <= k)%Z -> forall i, (0 <= i < N)%Z -> (i < k)%Z -> y i = 0).
  { apply (zr_ind (fun k => forall i, (0 <= i < N)%Z -> (i < k)%Z -> y i = 0)); [intros; lia|].
    intros k Hk IH i Hi Hlt. destruct (Z.eq_dec i k) as [->|]; [|apply IH; auto; lia].
    specialize (H3 k Hi). rewrite (Sum_one N _ k Hi) in H3.
    - rewrite H1 in H3 by auto. lra.
    - intros j Hj Hne. destruct (Z.lt_ge_cases j k); [rewrite IH by auto; ring|]. rewrite H2 by lia. ring. }
  intros i Hi. apply (G (i + 1)%Z); lia.
Qed.

Lemma upper_inj N (L : Z -> Z -> R) y : (forall i, (0 <= i < N)%Z -> L i i = 1) ->
  (forall i j, (0 <= i < N)%Z -> (i < j < N)%Z -> L i j = 0) ->
  (forall j, (0 <= j < N)%Z -> Sum N (fun i => L i j * y i) = 0) -> forall i, (0 <= i < N)%Z -> y i = 0.
Proof.
  intros H1 H2 H3 i Hi.
  assert (E : y (N - 1 - (N - 1 - i))%Z = 0); [|replace (N - 1 - (N - 1 - i))%Z with i in E by lia; exact E].
  apply (lower_inj N (fun a b => L (N - 1 - b)%Z (N - 1 - a)%Z) (fun a => y (N - 1 - a)%Z)); [| | |lia].
  - intros a Ha. apply H1. lia.
  - intros a b Ha Hb. apply H2; lia.
  - intros a Ha. pose proof (H3 (N - 1 - a)%Z ltac:(lia)) as E.
    rewrite (Sum_order N (fun b => N - 1 - b)%Z) in E; [exact E|]. split; intros; lia.
Qed.

Lemma regular_inj N K ord u : order_of N ord -> regular_order N K ord ->
  (forall a, (0 <= a < N)%Z -> Sum N (fun c => K a c * u c) = 0) -> forall a, (0 <= a < N)%Z -> u a = 0.
Proof.
  intros HO [L [D [U1 [U2 [U3 U4]]]]] HK a Ha. pose proof HO as [O1 O2].
  assert (HD : forall j, (0 <= j < N)%Z -> D j <> 0).
  { intros j Hj E. specialize (U4 j Hj). rewrite E, Rabs_R0 in U4. lra. }
  assert (HW : forall j, (0 <= j < N)%Z -> D j * Sum N (fun k => L k j * u (ord k)) = 0).
  { apply (lower_inj N L (fun j => D j * Sum N (fun k => L k j * u (ord k))) U1 U2). intros i Hi.
    specialize (HK (ord i) (O1 i Hi)). rewrite (Sum_order N ord) in HK by auto.
    rewrite (Sum_ext N _ (fun k => Sum N (fun j => L i j * D j * L k j) * u (ord k))) in HK
      by (intros k Hk; rewrite U3 by auto; reflexivity).
    rewrite <- HK. rewrite (Sum_ext N (fun k => Sum N (fun j => L i j * D j * L k j) * u (ord k))
      (fun k => Sum N (fun j => L i j * D j * L k j * u (ord k)))) by (intros k Hk; rewrite Sum_scal_r; reflexivity).
    rewrite Sum_swap. apply Sum_ext. intros j Hj. rewrite <- Rmult_assoc, <- Sum_scal. apply Sum_ext. intros; ring. }
  assert (HU : forall k, (0 <= k < N)%Z -> u (ord k) = 0).
  { apply (upper_inj N L (fun k => u (ord k)) U1 U2). intros j Hj.
    destruct (Rmult_integral _ _ (HW j Hj)); auto. exfalso. apply (HD j Hj). auto. }
  destruct (order_onto N ord a HO Ha) as [i [Hi <-]]. auto.
Qed.

(** ** The KKT matrix applied to a stacked vector *)

Section App.
Variable Q : QPdata.
Hypothesis Dn : (0 <= dn Q)%Z.
Hypothesis Dm : (0 <= dm Q)%Z.
Hypothesis Dp : (0 <= dp Q)%Z.
Notation n := (dn Q).
Notation m := (dm Q).
Notation p := (dp Q).

Definition stack (x y z : Z -> R) (a : Z) : R := if (a <? n)%Z then x a else if (a <? n + p)%Z then y (a - n)%Z else z (a - n - p)%Z.

Ltac cmp := repeat match goal with
  | |- context[(?a <? ?b)%Z] => destruct (Z.ltb_spec a b); try lia
  | |- context[(?a =? ?b)%Z] => destruct (Z.eqb_spec a b); try lia
  end.

Lemma split3 f : Sum (n + p + m) f = Sum n f + Sum p (fun k => f (n + k)%Z) + Sum m (fun i => f (n + p + i)%Z).
Proof. rewrite Sum_split, Sum_split by lia. reflexivity. Qed.

Lemma app_x w x y z j : (0 <= j < n)%Z -> Sum (n + p + m) (fun c => kkt_matrix Q w j c * stack x y z c) =
  Sum n (fun c => dP Q j c * x c) + Sum p (fun k => dA Q k j * y k) + Sum m (fun i => dG Q i j * z i).
Proof.
  intros Hj. rewrite split3. f_equal; [f_equal|]; apply Sum_ext; intros i Hi; unfold kkt_matrix, stack; cmp;
    repeat f_equal; try lia.
Qed.

Lemma app_y w x y z k : (0 <= k < p)%Z -> Sum (n + p + m) (fun c => kkt_matrix Q w (n + k) c * stack x y z c) =
  Sum n (fun c => dA Q k c * x c).
Proof.
  intros Hk. rewrite split3. rewrite (Sum_zero p), (Sum_zero m), !Rplus_0_r.
  - apply Sum_ext. intros i Hi. unfold kkt_matrix, stack. cmp. replace (n + k - n)%Z with k by lia. reflexivity.
  - intros i Hi. unfold kkt_matrix. cmp; ring.
  - intros i Hi. unfold kkt_matrix. cmp; ring.
Qed.

Lemma app_z w x y z i : (0 <= i < m)%Z -> Sum (n + p + m) (fun c => kkt_matrix Q w (n + p + i) c * stack x y z c) =
  Sum n (fun c => dG Q i c * x c) - w i * z i.
Proof.
  intros Hi. rewrite split3. rewrite (Sum_zero p), (Sum_one m _ i Hi), !Rplus_0_r.
  - unfold Rminus. f_equal.
    + apply Sum_ext. intros c Hc. unfold kkt_matrix, stack. cmp. replace (n + p + i - n - p)%Z with i by lia. reflexivity.
    + unfold kkt_matrix, stack. cmp. replace (n + p + i - n - p)%Z with i by lia. ring.
  - intros c Hc Hne. unfold kkt_matrix. cmp; ring.
  - intros c Hc. unfold kkt_matrix. cmp; ring.
Qed.

(** Two solutions of a system with a regular order agree. *)
Lemma kkt_unique w ord x y z x' y' z' : order_of (n + p + m) ord -> regular_order (n + p + m) (kkt_matrix Q w) ord ->
  (forall j, (0 <= j < n)%Z -> Sum n (fun c => dP Q j c * x c) + Sum p (fun k => dA Q k j * y k) + Sum m (fun i => dG Q i j * z i) =
     Sum n (fun c => dP Q j c * x' c) + Sum p (fun k => dA Q k j * y' k) + Sum m (fun i => dG Q i j * z' i)) ->
  (forall k, (0 <= k < p)%Z -> Sum n (fun c => dA Q k c * x c) = Sum n (fun c => dA Q k c * x' c)) ->
  (forall i, (0 <= i < m)%Z -> Sum n (fun c => dG Q i c * x c) - w i * z i = Sum n (fun c => dG Q i c * x' c) - w i * z' i) ->
  (forall j, (0 <= j < n)%Z -> x j = x' j) /\ (forall k, (0 <= k < p)%Z -> y k = y' k) /\ (forall i, (0 <= i < m)%Z -> z i = z' i).
Proof.
  intros HO HR E1 E2 E3.
  assert (G : forall a, (0 <= a < n + p + m)%Z -> stack x y z a - stack x' y' z' a = 0).
  { apply (regular_inj _ _ _ (fun a => stack x y z a - stack x' y' z' a) HO HR). intros a Ha.
    rewrite (Sum_ext _ _ (fun c => kkt_matrix Q w a c * stack x y z c - kkt_matrix Q w a c * stack x' y' z' c)) by (intros; ring).
    rewrite Sum_minus. apply Rminus_diag_eq. destruct (Z.lt_ge_cases a n); [|destruct (Z.lt_ge_cases a (n + p))].
    - rewrite !app_x by lia. apply E1. lia.
    - replace a with (n + (a - n))%Z by lia. rewrite !app_y by lia. apply E2. lia.
    - replace a with (n + p + (a - n - p))%Z by lia. rewrite !app_z by lia. apply E3. lia. }
  split; [|split]; intros i Hi.
  - specialize (G i ltac:(lia)). unfold stack in G. destruct (Z.ltb_spec i n); [lra|lia].
  - specialize (G (n + i)%Z ltac:(lia)). unfold stack in G. destruct (Z.ltb_spec (n + i) n); [lia|].
    destruct (Z.ltb_spec (n + i) (n + p)); [|lia]. replace (n + i - n)%Z with i in G by lia. lra.
  - specialize (G (n + p + i)%Z ltac:(lia)). unfold stack in G. destruct (Z.ltb_spec (n + p + i) n); [lia|].
    destruct (Z.ltb_spec (n + p + i) (n + p)); [lia|]. replace (n + p + i - n - p)%Z with i in G by lia. lra.
Qed.
End App.

(** ** The step *)

Lemma step_length_unique v d m a b : step_length v d m a -> step_length v d m b -> a = b.
Proof.
  assert (G : forall a b, largest_step v d m a -> largest_step v d m b -> a < b -> False).
  { intros x y [H1 H2] [H3 H4] Hlt. destruct (H2 y Hlt) as [i [Hi Hn]]. pose proof (H3 i Hi). lra. }
  assert (G2 : forall a, largest_step v d m a -> a < 10000000000 -> (forall i, (0 <= i < m)%Z -> 0 <= v i + 10000000000 * d i) -> False).
  { intros x [H1 H2] Hlt H. destruct (H2 _ Hlt) as [i [Hi Hn]]. pose proof (H i Hi). lra. }
  intros [[H1 H2]|[H1 H2]] [[H3 H4]|[H3 H4]].
  - destruct (Rtotal_order a b) as [H|[H|H]]; auto; exfalso; eauto.
  - exfalso. eauto.
  - exfalso. eauto.
  - congruence.
Qed.

Lemma step_length_ext2 v v' d d' m a : (forall i, (0 <= i < m)%Z -> v i = v' i) -> (forall i, (0 <= i < m)%Z -> d i = d' i) ->
  step_length v d m a -> step_length v' d' m a.
Proof.
  intros H H' [[[H1 H2] H3]|[H1 H2]].
  - left. split; auto. split.
    + intros i Hi. rewrite <- H, <- H' by auto. auto.
    + intros b Hb. destruct (H2 b Hb) as [i [Hi Hlt]]. exists i. split; auto. rewrite <- H, <- H' by auto. auto.
  - right. split; auto. intros i Hi. rewrite <- H, <- H' by auto. auto.
Qed.

Section Unique.
Variable Q : QPdata.
Hypothesis Dn : (0 <= dn Q)%Z.
Hypothesis Dm : (0 <= dm Q)%Z.
Hypothesis Dp : (0 <= dp Q)%Z.
Notation n := (dn Q).
Notation m := (dm Q).
Notation p := (dp Q).

Lemma vars_eq_refl v : vars_eq Q v v.
Proof. split; auto. Qed.
Lemma vars_eq_trans a b c : vars_eq Q a b -> vars_eq Q b c -> vars_eq Q a c.
Proof. intros [H1 H2 H3 H4] [G1 G2 G3 G4]. split; intros i Hi; [rewrite H1|rewrite H2|rewrite H3|rewrite H4]; auto. Qed.

Definition no_change (e : Z -> R) : Prop := forall a, (0 <= a < n + p + m)%Z -> e a = 0.

Lemma direction_unique ord v e1 e2 rc rc' d1 d2 : order_of (n + p + m) ord ->
  regular_order (n + p + m) (kkt_matrix Q (fun i => vs v i / vz v i)) ord -> interior_vars Q v ->
  no_change e1 -> no_change e2 -> (forall i, (0 <= i < m)%Z -> rc i = rc' i) ->
  direction Q e1 v rc d1 -> direction Q e2 v rc' d2 -> vars_eq Q d1 d2.
Proof.
  intros HO HR HI N1 N2 Hrc [X1 Y1 Z1 S1] [X2 Y2 Z2 S2].
  assert (S1' : forall i, (0 <= i < m)%Z -> vs d1 i = rc i / vz v i - vs v i / vz v i * vz d1 i).
  { intros i Hi. destruct (HI i Hi). rewrite <- (S1 i Hi). field. lra. }
  assert (S2' : forall i, (0 <= i < m)%Z -> vs d2 i = rc i / vz v i - vs v i / vz v i * vz d2 i).
  { intros i Hi. destruct (HI i Hi). rewrite (Hrc i Hi), <- (S2 i Hi). field. lra. }
  destruct (kkt_unique Q Dn Dm Dp (fun i => vs v i / vz v i) ord (vx d1) (vy d1) (vz d1) (vx d2) (vy d2) (vz d2) HO HR) as [E1 [E2 E3]].
  - intros j Hj. specialize (X1 j Hj). specialize (X2 j Hj). rewrite N1 in X1 by lia. rewrite N2 in X2 by lia. lra.
  - intros k Hk. specialize (Y1 k Hk). specialize (Y2 k Hk). rewrite N1 in Y1 by lia. rewrite N2 in Y2 by lia. lra.
  - intros i Hi. specialize (Z1 i Hi). specialize (Z2 i Hi). rewrite N1 in Z1 by lia. rewrite N2 in Z2 by lia.
    rewrite S1' in Z1 by auto. rewrite S2' in Z2 by auto. lra.
  - split; auto. intros i Hi. rewrite S1', S2', E3 by auto. reflexivity.
Qed.

Lemma step_direction_unique ord sd sg v e1 e2 d1 d2 sg1 sg2 : order_of (n + p + m) ord ->
  regular_order (n + p + m) (kkt_matrix Q (fun i => vs v i / vz v i)) ord -> interior_vars Q v ->
  no_change e1 -> no_change e2 -> step_direction Q e1 sd sg v d1 sg1 -> step_direction Q e2 sd sg v d2 sg2 ->
  sg1 = sg2 /\ vars_eq Q d1 d2.
Proof.
  intros HO HR HI N1 N2 [dp1 a1 b1 H1 H2 H3 H4 H5 H6|H1 H2 H3] [dp2 a2 b2 G1 G2 G3 G4 G5 G6|G1 G2 G3]; try (exfalso; lra).
  - assert (ED : vars_eq Q dp1 dp2) by (eapply (direction_unique ord v e1 e2); eauto; reflexivity).
    destruct ED as [D1 D2 D3 D4].
    assert (a1 = a2) by (eapply step_length_unique; [eapply step_length_ext2; [| |exact H3]; auto|exact G3]).
    assert (b1 = b2) by (eapply step_length_unique; [eapply step_length_ext2; [| |exact H4]; auto|exact G4]).
    subst a2 b2. assert (sg1 = sg2).
    { rewrite H5, G5. do 3 f_equal. unfold reduction. f_equal. apply Sum_ext. intros i Hi. rewrite D3, D4 by auto. reflexivity. }
    subst sg2. rewrite <- H. split; auto. eapply (direction_unique ord v e1 e2); [exact HO|exact HR|exact HI|exact N1|exact N2| |exact H6|exact G6].
    intros i Hi. cbv beta. rewrite D3, D4 by auto. rewrite <- H. reflexivity.
  - split; [congruence|]. eapply (direction_unique ord v e1 e2); [exact HO|exact HR|exact HI|exact N1|exact N2| |exact H3|exact G3]. reflexivity.
Qed.

Lemma method_step_unique ord sd sg v e1 e2 v1 v2 ap1 ap2 ad1 ad2 sg1 sg2 : order_of (n + p + m) ord ->
  regular_order (n + p + m) (kkt_matrix Q (fun i => vs v i / vz v i)) ord -> interior_vars Q v ->
  no_change e1 -> no_change e2 ->
  method_step Q e1 sd sg v v1 ap1 ad1 sg1 -> method_step Q e2 sd sg v v2 ap2 ad2 sg2 ->
  vars_eq Q v1 v2 /\ ap1 = ap2 /\ ad1 = ad2 /\ sg1 = sg2.
Proof.
  intros HO HR HI N1 N2 [d1 [H1 [[b1 [B1 E1]] [[c1 [C1 F1]] M1]]]] [d2 [H2 [[b2 [B2 E2]] [[c2 [C2 F2]] M2]]]].
  destruct (step_direction_unique ord sd sg v e1 e2 d1 d2 sg1 sg2 HO HR HI N1 N2 H1 H2) as [Es [D1 D2 D3 D4]].
  assert (b1 = b2) by (eapply step_length_unique; [eapply step_length_ext2; [| |exact B1]; auto|exact B2]).
  assert (c1 = c2) by (eapply step_length_unique; [eapply step_length_ext2; [| |exact C1]; auto|exact C2]).
  assert (Ea : ap1 = ap2) by congruence. assert (Ed : ad1 = ad2) by congruence. split; auto.
  destruct M1 as [X1 Y1 Z1 S1], M2 as [X2 Y2 Z2 S2]. split; intros i Hi.
  - rewrite X1, X2, D1, Ea by auto. reflexivity.
  - rewrite Y1, Y2, D2, Ed by auto. reflexivity.
  - rewrite Z1, Z2, D3, Ed by auto. reflexivity.
  - rewrite S1, S2, D4, Ea by auto. reflexivity.
Qed.

Lemma least_unique f k a b : least f k a -> least f k b -> a = b.
Proof. intros [H1 [i [Hi E1]]] [H2 [j [Hj E2]]]. pose proof (H1 j Hj). pose proof (H2 i Hi). lra. Qed.
Lemma greatest_unique f k a b : greatest f k a -> greatest f k b -> a = b.
Proof. intros [H1 [i [Hi E1]]] [H2 [j [Hj E2]]]. pose proof (H1 j Hj). pose proof (H2 i Hi). lra. Qed.
Lemma least_ext f g k a : (forall i, (0 <= i < k)%Z -> f i = g i) -> least f k a -> least g k a.
Proof. intros H [H1 [i [Hi E1]]]. split; [intros j Hj; rewrite <- H by auto; auto|]. exists i. split; auto. rewrite <- H; auto. Qed.
Lemma greatest_ext f g k a : (forall i, (0 <= i < k)%Z -> f i = g i) -> greatest f k a -> greatest g k a.
Proof. intros H [H1 [i [Hi E1]]]. split; [intros j Hj; rewrite <- H by auto; auto|]. exists i. split; auto. rewrite <- H; auto. Qed.

Lemma slack_ext x x' i : (forall j, (0 <= j < n)%Z -> x j = x' j) -> slack Q x i = slack Q x' i.
Proof. intros H. unfold slack. f_equal. apply Sum_ext. intros j Hj. rewrite H; auto. Qed.

Lemma start_point_ext e v v' : vars_eq Q v v' -> start_point Q e v -> start_point Q e v'.
Proof.
  intros [EX EY EZ ES] [[t [X [Y Z_]]] [a [A S]] [b [B T]]].
  assert (SX : forall w, Sum n (fun c => w c * vx v c) = Sum n (fun c => w c * vx v' c))
    by (intros w; apply Sum_ext; intros c Hc; rewrite EX; auto).
  assert (SY : forall w, Sum p (fun c => w c * vy v c) = Sum p (fun c => w c * vy v' c))
    by (intros w; apply Sum_ext; intros c Hc; rewrite EY; auto).
  assert (ESl : forall i, slack Q (vx v) i = slack Q (vx v') i) by (intros; apply slack_ext; auto).
  split.
  - exists t. split; [|split].
    + intros j Hj. rewrite <- X by auto. rewrite (SX (fun c => dP Q j c)), (SY (fun k => dA Q k j)), EX by auto. reflexivity.
    + intros k Hk. rewrite <- Y by auto. rewrite (SX (fun c => dA Q k c)), EY by auto. reflexivity.
    + intros i Hi. rewrite <- Z_ by auto. rewrite (SX (fun c => dG Q i c)). reflexivity.
  - exists a. split; [eapply least_ext; [|exact A]; auto|]. intros i Hi. rewrite <- ES, <- ESl by auto. auto.
  - exists b. split; [eapply greatest_ext; [|exact B]; auto|]. intros i Hi. rewrite <- EZ, <- ESl by auto. auto.
Qed.

Lemma start_unique ord e1 e2 v1 v2 : order_of (n + p + m) ord -> regular_order (n + p + m) (kkt_matrix Q (fun _ => 1)) ord ->
  no_change e1 -> no_change e2 -> start_point Q e1 v1 -> start_point Q e2 v2 -> vars_eq Q v1 v2.
Proof.
  intros HO HR N1 N2 [[t1 [X1 [Y1 Z1]]] [a1 [A1 S1]] [b1 [B1 T1]]] [[t2 [X2 [Y2 Z2]]] [a2 [A2 S2]] [b2 [B2 T2]]].
  destruct (kkt_unique Q Dn Dm Dp (fun _ => 1) ord (vx v1) (vy v1) t1 (vx v2) (vy v2) t2 HO HR) as [E1 [E2 E3]].
  - intros j Hj. specialize (X1 j Hj). specialize (X2 j Hj). rewrite N1 in X1 by lia. rewrite N2 in X2 by lia. lra.
  - intros k Hk. specialize (Y1 k Hk). specialize (Y2 k Hk). rewrite N1 in Y1 by lia. rewrite N2 in Y2 by lia. lra.
  - intros i Hi. specialize (Z1 i Hi). specialize (Z2 i Hi). rewrite N1 in Z1 by lia. rewrite N2 in Z2 by lia. lra.
  - assert (ES : forall i, slack Q (vx v1) i = slack Q (vx v2) i) by (intros; apply slack_ext; auto).
    assert (Ea : a1 = a2) by (eapply least_unique; [eapply least_ext; [|exact A1]; auto|exact A2]).
    assert (Eb : b1 = b2) by (eapply greatest_unique; [eapply greatest_ext; [|exact B1]; auto|exact B2]).
    subst a2 b2. split; auto; intros i Hi.
    + rewrite T1, T2, ES by auto. reflexivity.
    + rewrite S1, S2, ES by auto. reflexivity.
Qed.
End Unique.

(** ** The same problem *)

Section Same.
Variables Q Q' : QPdata.
Hypothesis HQ : same_qp Q Q'.

Lemma same_sym : same_qp Q' Q.
Proof.
  destruct HQ as [En Em Ep HP HA HG Hc Hb Hh]. split; auto; intros; symmetry; [apply HP|apply HA|apply HG|apply Hc|apply Hb|apply Hh]; lia.
Qed.

Lemma same_matrix w a c : (0 <= a < dn Q + dp Q + dm Q)%Z -> (0 <= c < dn Q + dp Q + dm Q)%Z -> kkt_matrix Q w a c = kkt_matrix Q' w a c.
Proof.
  intros Ha Hc'. pose proof HQ as [En Em Ep HP HA HG Hc Hb Hh]. unfold kkt_matrix. rewrite <- En, <- Ep.
  repeat match goal with
  | |- context[(?a <? ?b)%Z] => destruct (Z.ltb_spec a b); try lia
  end; try reflexivity; [apply HP|apply HA|apply HG|apply HA|apply HG]; lia.
Qed.

Lemma same_regular w ord : order_of (dn Q + dp Q + dm Q) ord -> regular_order (dn Q + dp Q + dm Q) (kkt_matrix Q w) ord ->
  regular_order (dn Q' + dp Q' + dm Q') (kkt_matrix Q' w) ord.
Proof.
  intros [HO _] HR. destruct HQ as [En Em Ep _ _ _ _ _ _]. rewrite <- En, <- Em, <- Ep.
  eapply regular_order_ext; [reflexivity| | |exact HR]; auto. intros a c Ha Hc. apply same_matrix; auto.
Qed.

Lemma same_vars a b : vars_eq Q a b -> vars_eq Q' a b.
Proof. destruct HQ as [En Em Ep _ _ _ _ _ _]. intros [H1 H2 H3 H4]. split; intros; [apply H1|apply H2|apply H3|apply H4]; lia. Qed.

Lemma same_interior v : interior_vars Q v -> interior_vars Q' v.
Proof. intros H i Hi. apply H. rewrite (sq_m _ _ HQ). auto. Qed.

Lemma same_sum_P j x : (0 <= j < dn Q)%Z -> Sum (dn Q) (fun c => dP Q j c * x c) = Sum (dn Q') (fun c => dP Q' j c * x c).
Proof. intros Hj. rewrite <- (sq_n _ _ HQ). apply Sum_ext. intros c Hc. rewrite (sq_P _ _ HQ) by auto. reflexivity. Qed.
Lemma same_sum_A k x : (0 <= k < dp Q)%Z -> Sum (dn Q) (fun c => dA Q k c * x c) = Sum (dn Q') (fun c => dA Q' k c * x c).
Proof. intros Hj. rewrite <- (sq_n _ _ HQ). apply Sum_ext. intros c Hc. rewrite (sq_A _ _ HQ) by auto. reflexivity. Qed.
Lemma same_sum_G k x : (0 <= k < dm Q)%Z -> Sum (dn Q) (fun c => dG Q k c * x c) = Sum (dn Q') (fun c => dG Q' k c * x c).
Proof. intros Hj. rewrite <- (sq_n _ _ HQ). apply Sum_ext. intros c Hc. rewrite (sq_G _ _ HQ) by auto. reflexivity. Qed.
Lemma same_sum_At j y : (0 <= j < dn Q)%Z -> Sum (dp Q) (fun k => dA Q k j * y k) = Sum (dp Q') (fun k => dA Q' k j * y k).
Proof. intros Hj. rewrite <- (sq_p _ _ HQ). apply Sum_ext. intros c Hc. rewrite (sq_A _ _ HQ) by auto. reflexivity. Qed.
Lemma same_sum_Gt j z : (0 <= j < dn Q)%Z -> Sum (dm Q) (fun k => dG Q k j * z k) = Sum (dm Q') (fun k => dG Q' k j * z k).
Proof. intros Hj. rewrite <- (sq_m _ _ HQ). apply Sum_ext. intros c Hc. rewrite (sq_G _ _ HQ) by auto. reflexivity. Qed.

Lemma same_dual x y z j : (0 <= j < dn Q)%Z -> res_dual Q x y z j = res_dual Q' x y z j.
Proof. intros Hj. unfold res_dual. rewrite same_sum_P, same_sum_At, same_sum_Gt, (sq_c _ _ HQ) by auto. reflexivity. Qed.
Lemma same_eq x k : (0 <= k < dp Q)%Z -> res_eq Q x k = res_eq Q' x k.
Proof. intros Hj. unfold res_eq. rewrite same_sum_A, (sq_b _ _ HQ) by auto. reflexivity. Qed.
Lemma same_in x s k : (0 <= k < dm Q)%Z -> res_in Q x s k = res_in Q' x s k.
Proof. intros Hj. unfold res_in. rewrite same_sum_G, (sq_h _ _ HQ) by auto. reflexivity. Qed.
Lemma same_gap s z : gap Q s z = gap Q' s z.
Proof. unfold gap. rewrite (sq_m _ _ HQ). reflexivity. Qed.
Lemma same_objective x : objective Q x = objective Q' x.
Proof.
  unfold objective. rewrite <- (sq_n _ _ HQ). f_equal; [f_equal|]; apply Sum_ext; intros i Hi.
  - f_equal. apply Sum_ext. intros j Hj. rewrite (sq_P _ _ HQ) by auto. reflexivity.
  - rewrite (sq_c _ _ HQ) by auto. reflexivity.
Qed.
Lemma same_norms x y z s : Euclid (res_dual Q x y z) (dn Q) = Euclid (res_dual Q' x y z) (dn Q') /\
  Euclid (res_eq Q x) (dp Q) = Euclid (res_eq Q' x) (dp Q') /\ Euclid (res_in Q x s) (dm Q) = Euclid (res_in Q' x s) (dm Q').
Proof.
  rewrite <- (sq_n _ _ HQ), <- (sq_p _ _ HQ), <- (sq_m _ _ HQ).
  split; [|split]; apply Euclid_ext; intros i Hi; [apply same_dual|apply same_eq|apply same_in]; auto.
Qed.
Lemma same_passes rt at_ v : passes_at Q rt at_ v -> passes_at Q' rt at_ v.
Proof.
  unfold passes_at, passes. destruct (same_norms (vx v) (vy v) (vz v) (vs v)) as [-> [-> ->]]. rewrite same_gap, (sq_p _ _ HQ). auto.
Qed.

Lemma same_direction e v rc d : direction Q e v rc d -> direction Q' e v rc d.
Proof.
  pose proof HQ as [En Em Ep _ _ _ _ _ _]. intros [X Y Z_ S]. split.
  - intros j Hj. rewrite <- same_sum_P, <- same_sum_At, <- same_sum_Gt, <- same_dual by lia. apply X. lia.
  - intros k Hk. rewrite <- same_sum_A, <- same_eq, <- En by lia. apply Y. lia.
  - intros i Hi. rewrite <- same_sum_G, <- same_in, <- En, <- Ep by lia. apply Z_. lia.
  - intros i Hi. apply S. lia.
Qed.

Lemma same_step e sd sg v v' ap ad sg' : method_step Q e sd sg v v' ap ad sg' -> method_step Q' e sd sg v v' ap ad sg'.
Proof.
  pose proof HQ as [En Em Ep _ _ _ _ _ _]. intros [d [H1 [H2 [H3 [M1 M2 M3 M4]]]]]. exists d. unfold damped_step in *. rewrite <- Em.
  split; [|split; [exact H2|split; [exact H3|split; intros; [apply M1|apply M2|apply M3|apply M4]; lia]]].
  destruct H1 as [dp1 a b H4 H5 H6 H7 H8 H9|H4 H5 H6].
  - apply (predictor_corrector Q' e sd sg v d sg' dp1 a b); auto.
    + apply same_direction. exact H5.
    + rewrite <- Em. exact H6.
    + rewrite <- Em. exact H7.
    + unfold reduction in *. rewrite <- Em. exact H8.
    + rewrite <- same_gap. apply same_direction. exact H9.
  - apply centering; auto. rewrite <- same_gap. apply same_direction. exact H6.
Qed.

Lemma same_start e v : start_point Q e v -> start_point Q' e v.
Proof.
  pose proof HQ as [En Em Ep HP HA HG Hc Hb Hh]. intros [[t [X [Y Z_]]] [a [A S]] [b [B T]]].
  assert (ES : forall i, (0 <= i < dm Q)%Z -> slack Q (vx v) i = slack Q' (vx v) i).
  { intros i Hi. unfold slack. rewrite same_sum_G, Hh by auto. reflexivity. }
  split.
  - exists t. split; [|split].
    + intros j Hj. rewrite <- same_sum_P, <- same_sum_At, <- same_sum_Gt, <- Hc by lia. apply X. lia.
    + intros k Hk. rewrite <- same_sum_A, <- Hb, <- En by lia. apply Y. lia.
    + intros i Hi. rewrite <- same_sum_G, <- Hh, <- En, <- Ep by lia. apply Z_. lia.
  - exists a. rewrite <- Em. split; [eapply least_ext; [|exact A]; auto|]. intros i Hi. rewrite <- ES by auto. auto.
  - exists b. rewrite <- Em. split; [eapply greatest_ext; [|exact B]; auto|]. intros i Hi. rewrite <- ES by auto. auto.
Qed.
End Same.
