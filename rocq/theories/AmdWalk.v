(** The traversal of A shared by AMD_aat and AMD_1: it visits every off-diagonal position of A + A' exactly once. *)
From Coq Require Import ZArith List Lia Bool.
From Verif Require Import Res Lists Spec MAmd AmdBase.
Import ListNotations.
Open Scope Z_scope.
Open Scope res_scope.

(** ** The sequence of pairs does not depend on what is done with them *)

Fixpoint foldp {S} (pair : Z -> Z -> S -> res S) (l : list (Z * Z)) (s : S) : res S :=
  match l with
  | [] => Ok s
  | (i, j) :: l => s' <- pair i j s ;; foldp pair l s'
  end.

Lemma foldp_app {S} (pair : Z -> Z -> S -> res S) l1 l2 s : foldp pair (l1 ++ l2) s = bind (foldp pair l1 s) (foldp pair l2).
Proof. revert s. induction l1 as [|[i j] l1 IH]; intros s; simpl; auto. destruct (pair i j s); simpl; auto. Qed.

Lemma bind_bind {A B C} (m : res A) (f : A -> res B) (g : B -> res C) : bind (bind m f) g = bind m (fun a => bind (f a) g).
Proof. destruct m; reflexivity. Qed.
Lemma bind_ext {A B} (m : res A) (f g : A -> res B) : (forall a, f a = g a) -> bind m f = bind m g.
Proof. intros H. destruct m; simpl; auto. Qed.

(** [f] runs [pair] over [l] and returns [t]. *)
Definition traces {T} (f : forall S : Type, (Z -> Z -> S -> res S) -> S -> res (T * S)) (t : T) (l : list (Z * Z)) : Prop :=
  forall S pair s, f S pair s = bind (foldp pair l s) (fun s' => Ok (t, s')).

Lemma while_trace {T} (Inv : T -> list (Z * Z) -> Prop) (m : T -> Z) (Q : T -> list (Z * Z) -> Prop) fuel
    (cond : forall S : Type, T * S -> res bool) (body : forall S : Type, (Z -> Z -> S -> res S) -> T * S -> res (T * S)) t0 l0 :
  Inv t0 l0 -> m t0 < Z.of_nat fuel ->
  (forall t l, Inv t l -> 0 <= m t /\ exists b : bool, (forall S s, cond S (t, s) = Ok b) /\
     if b then exists t' o, traces (fun S pair s => body S pair (t, s)) t' o /\ Inv t' (l ++ o) /\ m t' < m t else Q t l) ->
  exists t' l', traces (fun S pair s => while_ fuel (cond S) (body S pair) (t0, s)) t' l' /\ Q t' (l0 ++ l').
Proof.
  revert t0 l0. induction fuel as [|f IH]; intros t0 l0 HI Hm Hs.
  - destruct (Hs t0 l0 HI). lia.
  - destruct (Hs t0 l0 HI) as [H0 [b [Hc Hb]]]. destruct b.
    + destruct Hb as [t1 [o [Tr [HI1 Hm1]]]]. destruct (IH t1 (l0 ++ o) HI1 ltac:(lia) Hs) as [t2 [l2 [Tr2 HQ]]].
      exists t2, (o ++ l2). split; [|rewrite app_assoc; auto]. intros S pair s. simpl. rewrite Hc. simpl.
      rewrite Tr, bind_bind, foldp_app, bind_bind. apply bind_ext. intros s'. simpl. apply Tr2.
    + exists t0, []. split; [|rewrite app_nil_r; auto]. intros S pair s. simpl. rewrite Hc. reflexivity.
Qed.

Lemma for_trace {T} (Inv : Z -> T -> list (Z * Z) -> Prop) lo hi
    (body : forall S : Type, (Z -> Z -> S -> res S) -> Z -> T * S -> res (T * S)) t0 l0 :
  lo <= hi -> Inv lo t0 l0 ->
  (forall i t l, lo <= i < hi -> Inv i t l ->
     exists t' o, traces (fun S pair s => body S pair i (t, s)) t' o /\ Inv (i + 1) t' (l ++ o)) ->
  exists t' l', traces (fun S pair s => for_ lo hi (body S pair) (t0, s)) t' l' /\ Inv hi t' (l0 ++ l').
Proof.
  intros Hle. remember (Z.to_nat (hi - lo)) as k eqn:Ek. revert lo t0 l0 Hle Ek.
  induction k as [|k IH]; intros lo t0 l0 Hle Ek HI Hs.
  - assert (lo = hi) by lia. subst. exists t0, []. split; [|rewrite app_nil_r; auto]. intros S pair s. rewrite for_nil by lia.
    reflexivity.
  - destruct (Hs lo t0 l0 ltac:(lia) HI) as [t1 [o [Tr HI1]]].
    destruct (IH (lo + 1) t1 (l0 ++ o) ltac:(lia) ltac:(lia) HI1) as [t2 [l2 [Tr2 HI2]]]; [intros; apply Hs; auto; lia|].
    exists t2, (o ++ l2). split; [|rewrite app_assoc; auto]. intros S pair s. rewrite for_step by lia.
    rewrite Tr, bind_bind, foldp_app, bind_bind. apply bind_ext. intros s'. simpl. apply Tr2.
Qed.

(** The neighbours of v among the visited pairs, in the order of the visits. *)
Definition nb1 (v : Z) (e : Z * Z) : list Z := if fst e =? v then [snd e] else if snd e =? v then [fst e] else [].
Definition nb (l : list (Z * Z)) (v : Z) : list Z := flat_map (nb1 v) l.

Lemma nb_snoc l i j v : nb (l ++ [(i, j)]) v = nb l v ++ (if i =? v then [j] else if j =? v then [i] else []).
Proof. unfold nb. rewrite flat_map_app. simpl. rewrite app_nil_r. reflexivity. Qed.

(** ** The traversal *)

Section WalkProof.
Variables (n nz : Z) (Ap Ai : arr Z) (ap ai : Z -> Z).
Hypothesis Hn : 0 <= n.
Hypothesis Hap0 : ap 0 = 0.
Hypothesis Hapn : ap n = nz.
Hypothesis Hmono : forall j, 0 <= j < n -> ap j <= ap (j + 1).
Hypothesis HAp : forall j, 0 <= j <= n -> rd Ap j = Ok (ap j).
Hypothesis HAi : forall k, 0 <= k < nz -> rd Ai k = Ok (ai k).
Hypothesis Hrows : forall k, 0 <= k < nz -> 0 <= ai k < n.
Hypothesis Hsort : forall j k, 0 <= j < n -> ap j <= k -> k + 1 < ap (j + 1) -> ai k < ai (k + 1).

Lemma pos_nz j p : 0 <= j < n -> ap j <= p < ap (j + 1) -> 0 <= p < nz.
Proof.
  intros Hj Hp. pose proof (mono_steps ap n Hmono 0 j ltac:(lia) ltac:(lia) ltac:(lia)).
  pose proof (mono_steps ap n Hmono (j + 1) n ltac:(lia) ltac:(lia) ltac:(lia)). lia.
Qed.

Lemma col_sorted j p q : 0 <= j < n -> ap j <= p -> p < q -> q < ap (j + 1) -> ai p < ai q.
Proof.
  intros Hj Hp Hpq. pattern q. apply (zr_ind _ (p + 1)); [| |lia].
  - intros H. apply (Hsort j); auto.
  - intros k Hk IH H. specialize (IH ltac:(lia)). pose proof (Hsort j k Hj ltac:(lia) ltac:(lia)). lia.
Qed.

(** Row x of column y lies before the pointer of column y. *)
Definition dn (q : Z -> Z) (x y : Z) : Prop := exists p, ap y <= p < q y /\ ai p = x.
Definition entry (x y : Z) : Prop := exists p, ap y <= p < ap (y + 1) /\ ai p = x.

Record core (l : list (Z * Z)) (q : Z -> Z) : Prop := mkCore {
  co_q : forall y, 0 <= y < n -> ap y <= q y <= ap (y + 1);
  co_l : forall i j, In (i, j) l -> 0 <= i < n /\ 0 <= j < n /\ i <> j;
  co_nd : forall v, 0 <= v < n -> NoDup (nb l v);
  co_in : forall v u, 0 <= v < n -> 0 <= u < n -> In u (nb l v) <-> u <> v /\ (dn q u v \/ dn q v u)
}.

Lemma dn_advance q y x u v : 0 <= y < n -> ap y <= q y < ap (y + 1) -> ai (q y) = x ->
  (dn (fup q y (q y + 1)) u v <-> dn q u v \/ (u = x /\ v = y)).
Proof.
  intros Hy Hq E. unfold dn. split.
  - intros [p [Hp Ep]]. unfold fup in Hp. destruct (Z.eqb_spec v y) as [->|]; [|left; eauto].
    destruct (Z.eq_dec p (q y)) as [->|]; [right; split; congruence|left; exists p; split; [lia|auto]].
  - intros [[p [Hp Ep]]|[-> ->]].
    + exists p. unfold fup. destruct (Z.eqb_spec v y) as [->|]; split; auto; lia.
    + exists (q y). rewrite fup_eq. split; auto. lia.
Qed.

Lemma nb_range l v u : (forall i j, In (i, j) l -> 0 <= i < n /\ 0 <= j < n /\ i <> j) -> In u (nb l v) -> 0 <= u < n.
Proof.
  intros H Hu. unfold nb in Hu. apply in_flat_map in Hu. destruct Hu as [[i j] [Hi Hu]]. specialize (H _ _ Hi). unfold nb1 in Hu. simpl in Hu.
  destruct (i =? v); [destruct Hu as [<-|[]]; tauto|]. destruct (j =? v); [destruct Hu as [<-|[]]; tauto|destruct Hu].
Qed.

(** Moving a pointer over an entry that has already been seen from the other side, or the diagonal. *)
Lemma core_skip l q y x : core l q -> 0 <= y < n -> q y < ap (y + 1) -> ai (q y) = x -> (x = y \/ dn q y x) ->
  core l (fup q y (q y + 1)).
Proof.
  intros C Hy Hq E Hd. pose proof (co_q _ _ C y Hy) as Q. constructor.
  - intros z Hz. unfold fup. destruct (Z.eqb_spec z y) as [->|]; [lia|apply C; auto].
  - apply C.
  - apply C.
  - intros v u Hv Hu. rewrite (co_in _ _ C v u Hv Hu). rewrite !(dn_advance q y x) by (auto; lia).
    destruct Hd as [->|Hd]; [|destruct (Z.eq_dec x y)]; intuition (subst; auto; congruence).
Qed.

(** Moving a pointer over an entry seen for the first time, with a visit. *)
Lemma core_visit l q y x i j : core l q -> 0 <= y < n -> q y < ap (y + 1) -> ai (q y) = x -> x <> y -> ~ dn q y x ->
  (i = x /\ j = y) \/ (i = y /\ j = x) ->
  core (l ++ [(i, j)]) (fup q y (q y + 1)).
Proof.
  intros C Hy Hq E Ne Hd Hij. pose proof (co_q _ _ C y Hy) as Q.
  assert (Hx : 0 <= x < n) by (rewrite <- E; apply Hrows; apply (pos_nz y); auto; lia).
  assert (Nd : ~ dn q x y).
  { intros [p [Hp Ep]]. pose proof (col_sorted y p (q y) Hy ltac:(lia) ltac:(lia) Hq). lia. }
  assert (N1 : ~ In x (nb l y)) by (rewrite (co_in _ _ C) by auto; tauto).
  assert (N2 : ~ In y (nb l x)) by (rewrite (co_in _ _ C) by auto; tauto).
  constructor.
  - intros z Hz. unfold fup. destruct (Z.eqb_spec z y) as [->|]; [lia|apply C; auto].
  - intros a b H. apply in_app_iff in H. destruct H as [H|[H|[]]]; [apply C; auto|]. injection H as <- <-.
    destruct Hij as [[-> ->]|[-> ->]]; auto.
  - intros v Hv. rewrite nb_snoc.
    assert (App : forall z, ~ In z (nb l v) -> NoDup (nb l v ++ [z])).
    { intros z Hz. apply NoDup_app_remove_r with (l' := []) || idtac.
      apply (NoDup_Add (a := z) (l := nb l v)); [|split; auto; apply C; auto].
      rewrite <- (app_nil_r (nb l v)) at 1. apply Add_app. }
    destruct Hij as [[-> ->]|[-> ->]].
    + destruct (Z.eqb_spec x v) as [<-|]; auto. destruct (Z.eqb_spec y v) as [<-|]; auto. rewrite app_nil_r. apply C; auto.
    + destruct (Z.eqb_spec y v) as [<-|]; auto. destruct (Z.eqb_spec x v) as [<-|]; auto. rewrite app_nil_r. apply C; auto.
  - intros v u Hv Hu. rewrite nb_snoc, in_app_iff, (co_in _ _ C v u Hv Hu). rewrite !(dn_advance q y x) by (auto; lia).
    destruct Hij as [[-> ->]|[-> ->]]; repeat (match goal with |- context[?a =? ?b] => destruct (Z.eqb_spec a b) end);
      simpl; intuition (subst; auto; try congruence).
Qed.

(** State of the pointers while column k is being scanned; [ex] is the earlier column being looked into (or -1). *)
Record pinv (k ex : Z) (q : Z -> Z) : Prop := mkPinv {
  pi_beyond : forall y, k < y < n -> q y = ap y;
  pi_below : forall y p, 0 <= y < k -> q y <= p < ap (y + 1) -> y < ai p;
  pi_done : forall y p, 0 <= y < k -> ap y <= p < q y -> ai p <= y \/ ai p < k \/ (ai p = k /\ dn q y k);
  pi_todo : forall y p, 0 <= y < k -> q y <= p < ap (y + 1) -> ai p < k \/ (ai p = k /\ y <> ex) -> ~ dn q y (ai p)
}.

Lemma dn_mono q y u v : dn q u v -> dn (fup q y (q y + 1)) u v.
Proof. intros [p [Hp E]]. exists p. unfold fup. destruct (Z.eqb_spec v y) as [->|]; split; auto; lia. Qed.

(** Moving the pointer of column k over row j < k. *)
Lemma pinv_upper k q j : pinv k (-1) q -> 0 <= k < n -> ap k <= q k < ap (k + 1) -> ai (q k) = j -> 0 <= j < k ->
  ~ dn q k j /\ pinv k j (fup q k (q k + 1)).
Proof.
  intros P Hk Hq E Hj. split.
  { intros [p [Hp Ep]]. destruct (pi_done _ _ _ P j p Hj Hp) as [?|[?|[_ [p' [Hp' Ep']]]]]; try lia.
    pose proof (col_sorted k p' (q k) Hk ltac:(lia) ltac:(lia) ltac:(lia)). lia. }
  assert (Qne : forall y, y < k -> fup q k (q k + 1) y = q y) by (intros; apply fup_ne; lia).
  constructor.
  - intros y Hy. rewrite fup_ne by lia. apply P; auto.
  - intros y p Hy. rewrite Qne by lia. apply P; auto.
  - intros y p Hy. rewrite Qne by lia. intros Hp. destruct (pi_done _ _ _ P y p Hy Hp) as [?|[?|[? ?]]]; auto.
    right. right. split; auto. apply dn_mono; auto.
  - intros y p Hy. rewrite Qne by lia. intros Hp Hc. rewrite (dn_advance q k j) by (auto; lia).
    intros [D|[D1 D2]].
    + revert D. apply P; auto. destruct Hc as [?|[? ?]]; auto. right; split; auto. lia.
    + subst. destruct Hc as [?|[? ?]]; try lia.
Qed.

(** Moving the pointer of an earlier column j over row i <= k. *)
Lemma pinv_lower k q j i : pinv k j q -> 0 <= k < n -> 0 <= j < k -> ap j <= q j < ap (j + 1) -> ai (q j) = i ->
  (i < k \/ (i = k /\ dn q j k)) ->
  (i < k -> ~ dn q j i) /\ j < i /\ pinv k j (fup q j (q j + 1)).
Proof.
  intros P Hk Hj Hq E Hi. assert (Hji : j < i) by (rewrite <- E; apply (pi_below _ _ _ P); auto; lia).
  split; [|split; auto].
  { intros L. rewrite <- E. apply (pi_todo _ _ _ P); auto; lia. }
  constructor.
  - intros y Hy. rewrite fup_ne by lia. apply P; auto.
  - intros y p Hy Hp. apply (pi_below _ _ _ P y p); auto. unfold fup in Hp. destruct (Z.eqb_spec y j) as [->|]; lia.
  - intros y p Hy Hp. unfold fup in Hp. assert (D : ap y <= p < q y \/ (y = j /\ p = q j)).
    { destruct (Z.eqb_spec y j) as [->|]; lia. }
    destruct D as [D|[-> ->]].
    + destruct (pi_done _ _ _ P y p Hy D) as [?|[?|[? ?]]]; auto. right; right. split; auto. apply dn_mono; auto.
    + rewrite E. destruct Hi as [?|[-> Hd]]; auto. right; right. split; auto. apply dn_mono; auto.
  - intros y p Hy Hp Hc. assert (Hp' : q y <= p < ap (y + 1)) by (unfold fup in Hp; destruct (Z.eqb_spec y j) as [->|]; lia).
    rewrite (dn_advance q j i) by (auto; lia). intros [D|[D1 D2]].
    + revert D. apply P; auto.
    + subst y. pose proof (pi_below _ _ _ P i p Hy Hp'). lia.
Qed.

(** The look into column j is over. *)
Lemma pinv_close k q j : pinv k j q -> 0 <= k < n -> 0 <= j < k -> (forall p, q j <= p < ap (j + 1) -> k < ai p) -> pinv k (-1) q.
Proof.
  intros P Hk Hj H. constructor; try apply P. intros y p Hy Hp Hc. apply P; auto.
  destruct Hc as [?|[? _]]; auto. destruct (Z.eq_dec y j) as [->|]; [|auto]. specialize (H p Hp). lia.
Qed.

Lemma beyond_from j p k : 0 <= j < n -> ap j <= p -> (p < ap (j + 1) -> k < ai p) -> forall p', p <= p' < ap (j + 1) -> k < ai p'.
Proof.
  intros Hj Hp H p' Hp'. specialize (H ltac:(lia)). destruct (Z.eq_dec p p') as [->|]; auto.
  pose proof (col_sorted j p p' Hj Hp ltac:(lia) ltac:(lia)). lia.
Qed.

(** Lines 96-121. *)
Lemma walk_lower_ok k j q l : 0 <= k < n -> 0 <= j < k -> core l q -> pinv k j q -> dn q j k ->
  exists pj' q' o, traces (fun S pair s => walk_lower Ai pair k j (q j) (ap (j + 1)) s) pj' o /\
    core (l ++ o) q' /\ pinv k (-1) q' /\ q' j = pj' /\ forall y, y <> j -> q' y = q y.
Proof.
  intros Hk Hj C P D0. pose proof (co_q _ _ C j ltac:(lia)) as Qj.
  destruct (while_trace (T := Z * bool)
     (fun '(pj, stop) l' => exists q', q' j = pj /\ (forall y, y <> j -> q' y = q y) /\ core l' q' /\ pinv k j q' /\
       (stop = true -> pj < ap (j + 1) -> k < ai pj) /\ dn q' j k)
     (fun '(pj, stop) => if stop : bool then 0 else ap (j + 1) - pj)
     (fun '(pj, stop) l' => exists q', q' j = pj /\ (forall y, y <> j -> q' y = q y) /\ core l' q' /\ pinv k (-1) q')
     (fuel (ap (j + 1) - q j))
     (fun S '(pj, stop, s) => Ok (negb stop && (pj <? ap (j + 1))))
     (fun S pair '(pj, stop, s) => i <- rd Ai pj ;;
        if i <? k then s <- pair i j s ;; Ok (pj + 1, false, s) else if i =? k then Ok (pj + 1, true, s) else Ok (pj, true, s))
     (q j, false) l) as [[pj' st'] [o [Tr [q' [E' [N' [C' P']]]]]]].
  - exists q. do 4 (split; [auto|]). split; [discriminate|auto].
  - unfold fuel. lia.
  - intros [pj stop] l' [q1 [E1 [N1 [C1 [P1 [St1 D1]]]]]]. pose proof (co_q _ _ C1 j ltac:(lia)) as Q1.
    split; [destruct stop; lia|]. exists (negb stop && (pj <? ap (j + 1))). split; [reflexivity|].
    destruct stop; cbn [negb andb].
    + exists q1. repeat (split; [auto|]). apply (pinv_close k q1 j); auto.
      apply beyond_from; [lia|lia|]. rewrite E1. auto.
    + destruct (Z.ltb_spec pj (ap (j + 1))) as [L|L].
      * pose proof (pos_nz j pj ltac:(lia) ltac:(lia)) as Hpz.
        destruct (Z.lt_trichotomy (ai pj) k) as [Lt|[Eq|Gt]].
        -- destruct (pinv_lower k q1 j (ai pj) P1 Hk Hj ltac:(lia) ltac:(rewrite E1; auto) ltac:(auto)) as [A1 [A2 A3]].
           exists (pj + 1, false), [(ai pj, j)]. split; [|split].
           ++ intros S pair s. rewrite HAi by auto. simpl. destruct (Z.ltb_spec (ai pj) k); [|lia].
              destruct (pair (ai pj) j s); reflexivity.
           ++ exists (fup q1 j (q1 j + 1)). rewrite fup_eq. split; [lia|]. split.
              { intros y Hy. rewrite fup_ne by auto. auto. }
              split; [|split; [auto|split; [discriminate|apply dn_mono; auto]]].
              apply core_visit with (x := ai pj); auto; try lia. rewrite E1; auto.
           ++ cbv beta iota. lia.
        -- destruct (pinv_lower k q1 j (ai pj) P1 Hk Hj ltac:(lia) ltac:(rewrite E1; auto) ltac:(auto)) as [A1 [A2 A3]].
           exists (pj + 1, true), []. split; [|split].
           ++ intros S pair s. rewrite HAi by auto. simpl. destruct (Z.ltb_spec (ai pj) k); [lia|].
              destruct (Z.eqb_spec (ai pj) k); [reflexivity|lia].
           ++ rewrite app_nil_r. exists (fup q1 j (q1 j + 1)). rewrite fup_eq. split; [lia|]. split.
              { intros y Hy. rewrite fup_ne by auto. auto. }
              split; [|split; [auto|split; [|apply dn_mono; auto]]].
              ** apply core_skip with (x := ai pj); auto; try lia; [rewrite E1; auto|]. right. rewrite Eq. auto.
              ** intros _ L2. rewrite <- Eq. apply (col_sorted j); lia.
           ++ cbv beta iota. lia.
        -- exists (pj, true), []. split; [|split].
           ++ intros S pair s. rewrite HAi by auto. simpl. destruct (Z.ltb_spec (ai pj) k); [lia|].
              destruct (Z.eqb_spec (ai pj) k); [lia|reflexivity].
           ++ rewrite app_nil_r. exists q1. repeat (split; [auto|]). auto.
           ++ cbv beta iota. lia.
      * exists q1. repeat (split; [auto|]). apply (pinv_close k q1 j); auto. intros; lia.
  - exists pj', q', o. split; [|auto]. intros S pair s. unfold walk_lower. rewrite Tr, bind_bind. apply bind_ext. reflexivity.
Qed.

(** The pointer array holds the pointers of the columns before k. *)
Definition tp_is (Tp : arr Z) (k : Z) (q : Z -> Z) : Prop := zlen Tp = n /\ forall y, 0 <= y < k -> rd Tp y = Ok (q y).

(** One column. *)
Lemma walk_col_ok k q l Tp : 0 <= k < n -> core l q -> pinv k (-1) q -> q k = ap k -> tp_is Tp k q ->
  exists Tp' q' o, traces (fun S pair s => walk_col Ap Ai pair k (Tp, s)) Tp' o /\
    core (l ++ o) q' /\ pinv (k + 1) (-1) q' /\ tp_is Tp' (k + 1) q' /\ (forall y, k < y -> q' y = q y).
Proof.
  intros Hk C P Qk HT. pose proof (Hmono k Hk) as Hm.
  destruct (while_trace (T := Z * bool * arr Z)
     (fun '(p, stop, Tp) l' => exists q', q' k = p /\ (forall y, k < y -> q' y = q y) /\ core l' q' /\ pinv k (-1) q' /\
        tp_is Tp k q' /\ (forall p', ap k <= p' < p -> ai p' <= k) /\ (stop = true -> p < ap (k + 1) -> k < ai p))
     (fun '(p, stop, Tp) => if stop : bool then 0 else ap (k + 1) - p)
     (fun '(p, stop, Tp) l' => exists q', q' k = p /\ (forall y, k < y -> q' y = q y) /\ core l' q' /\ pinv (k + 1) (-1) q' /\
        tp_is Tp k q')
     (fuel (ap (k + 1) - ap k))
     (fun S '(p, stop, Tp, s) => Ok (negb stop && (p <? ap (k + 1))))
     (fun S pair '(p, stop, Tp, s) =>
        j <- rd Ai p ;;
        if j <? k then
          s <- pair j k s ;;
          pj2 <- rd Ap (j + 1) ;;
          pj <- rd Tp j ;;
          '(pj, s) <- walk_lower Ai pair k j pj pj2 s ;;
          Tp <- wr Tp j pj ;;
          Ok (p + 1, false, Tp, s)
        else if j =? k then Ok (p + 1, true, Tp, s)
        else Ok (p, true, Tp, s))
     (ap k, false, Tp) l) as [[[p' st'] Tp'] [o [Tr [q' [E' [N' [C' [P' T']]]]]]]].
  - exists q. do 5 (split; [auto|]). split; [intros; lia|discriminate].
  - unfold fuel. lia.
  - intros [[p stop] Tp1] l1 [q1 [E1 [N1 [C1 [P1 [T1 [U1 St1]]]]]]]. pose proof (co_q _ _ C1 k Hk) as Q1. rewrite E1 in Q1.
    split; [destruct stop; lia|]. exists (negb stop && (p <? ap (k + 1))). split; [reflexivity|].
    assert (Fin : (forall p', p <= p' < ap (k + 1) -> k < ai p') -> pinv (k + 1) (-1) q1).
    { intros Hb. constructor.
      - intros y Hy. apply P1. lia.
      - intros y p' Hy Hp'. destruct (Z.eq_dec y k) as [->|]; [apply Hb; lia|apply (pi_below _ _ _ P1); auto; lia].
      - intros y p' Hy Hp'. destruct (Z.eq_dec y k) as [->|].
        + left. apply U1. lia.
        + destruct (pi_done _ _ _ P1 y p' ltac:(lia) Hp') as [?|[?|[? ?]]]; auto; right; left; lia.
      - intros y p' Hy Hp' Hc. pose proof (Hrows p' (pos_nz y p' ltac:(lia) ltac:(pose proof (co_q _ _ C1 y ltac:(lia)); lia))) as Hr.
        assert (Hc' : ai p' <= k \/ (ai p' = k + 1 /\ k + 1 < n)) by lia.
        destruct Hc' as [Hc'|[Hc' Hlt]].
        + destruct (Z.eq_dec y k) as [->|]; [specialize (Hb p' ltac:(lia)); lia|]. apply (pi_todo _ _ _ P1); auto; lia.
        + rewrite Hc'. intros [z [Hz _]]. rewrite (pi_beyond _ _ _ P1 (k + 1) ltac:(lia)) in Hz. lia. }
    destruct stop; cbn [negb andb].
    + exists q1. do 3 (split; [auto|]). split; [|auto]. apply Fin. apply beyond_from; [lia|lia|auto].
    + destruct (Z.ltb_spec p (ap (k + 1))) as [L|L].
      * pose proof (pos_nz k p ltac:(lia) ltac:(lia)) as Hpz. pose proof (Hrows p Hpz) as Hr.
        destruct (Z.lt_trichotomy (ai p) k) as [Lt|[Eq|Gt]].
        -- destruct (pinv_upper k q1 (ai p) P1 Hk ltac:(lia) ltac:(rewrite E1; auto) ltac:(lia)) as [A1 A2].
           set (q2 := fup q1 k (q1 k + 1)) in *.
           assert (C2 : core (l1 ++ [(ai p, k)]) q2) by (apply core_visit with (x := ai p); auto; try lia; rewrite E1; auto).
           assert (D2 : dn q2 (ai p) k) by (exists p; unfold q2; rewrite fup_eq; split; auto; lia).
           destruct (walk_lower_ok k (ai p) q2 _ Hk ltac:(lia) C2 A2 D2) as [pj' [q3 [o [Tr [C3 [P3 [E3 N3]]]]]]].
           assert (Eq2 : q2 (ai p) = q1 (ai p)) by (apply fup_ne; lia). rewrite Eq2 in Tr.
           destruct T1 as [LT RT].
           destruct (wr_spec Tp1 (ai p) pj' ltac:(lia)) as [Tp2 [W2 [LT2 RT2]]].
           exists (p + 1, false, Tp2), ((ai p, k) :: o). split; [|split].
           ++ intros S pair s. rewrite HAi by auto. simpl. destruct (Z.ltb_spec (ai p) k); [|lia].
              rewrite HAp by lia. rewrite (RT (ai p)) by lia. rewrite bind_bind. apply bind_ext. intros s'. simpl.
              rewrite Tr, !bind_bind. apply bind_ext. intros s2. simpl. rewrite W2. reflexivity.
           ++ exists q3. rewrite N3 by lia. unfold q2 at 1. rewrite fup_eq. split; [lia|]. split.
              { intros y Hy. rewrite N3 by lia. unfold q2. rewrite fup_ne by lia. auto. }
              split; [rewrite <- app_assoc in C3; exact C3|]. split; auto. split; [|split].
              ** split; [lia|]. intros y Hy. rewrite RT2. destruct (Z.eqb_spec y (ai p)) as [->|]; [now rewrite E3|].
                 rewrite N3 by auto. unfold q2. rewrite fup_ne by lia. auto.
              ** intros p' Hp'. destruct (Z.eq_dec p' p) as [->|]; [lia|apply U1; lia].
              ** discriminate.
           ++ cbv beta iota. lia.
        -- exists (p + 1, true, Tp1), []. split; [|split].
           ++ intros S pair s. rewrite HAi by auto. simpl. destruct (Z.ltb_spec (ai p) k); [lia|].
              destruct (Z.eqb_spec (ai p) k); [reflexivity|lia].
           ++ rewrite app_nil_r. exists (fup q1 k (q1 k + 1)). rewrite fup_eq. split; [lia|]. split.
              { intros y Hy. rewrite fup_ne by lia. auto. }
              split; [apply core_skip with (x := ai p); auto; try lia; rewrite E1; auto|].
              split; [|split; [|split]].
              ** constructor.
                 --- intros y Hy. rewrite fup_ne by lia. apply P1; auto.
                 --- intros y p' Hy. rewrite fup_ne by lia. apply P1; auto.
                 --- intros y p' Hy. rewrite fup_ne by lia. intros Hp'. destruct (pi_done _ _ _ P1 y p' Hy Hp') as [?|[?|[? ?]]]; auto.
                     right; right; split; auto. apply dn_mono; auto.
                 --- intros y p' Hy. rewrite fup_ne by lia. intros Hp' Hc. rewrite (dn_advance q1 k k); [|auto|lia|rewrite E1; auto].
                     intros [D|[D1 D2]]; [revert D; apply P1; auto|lia].
              ** destruct T1 as [LT RT]. split; auto. intros y Hy. rewrite fup_ne by lia. auto.
              ** intros p' Hp'. destruct (Z.eq_dec p' p) as [->|]; [lia|apply U1; lia].
              ** intros _ L2. rewrite <- Eq at 1. apply (col_sorted k); lia.
           ++ cbv beta iota. lia.
        -- exists (p, true, Tp1), []. split; [|split].
           ++ intros S pair s. rewrite HAi by auto. simpl. destruct (Z.ltb_spec (ai p) k); [lia|].
              destruct (Z.eqb_spec (ai p) k); [lia|reflexivity].
           ++ rewrite app_nil_r. exists q1. repeat (split; [auto|]). auto.
           ++ cbv beta iota. lia.
      * exists q1. do 3 (split; [auto|]). split; [|auto]. apply Fin. intros; lia.
  - destruct T' as [LT RT]. destruct (wr_spec Tp' k p' ltac:(lia)) as [Tp2 [W2 [LT2 RT2]]].
    exists Tp2, q', o. split; [|split; [auto|split; [auto|split]]]; auto.
    + intros S pair s. unfold walk_col. rewrite !HAp by lia. cbn [bind]. rewrite Tr, !bind_bind. apply bind_ext. intros s'. simpl.
      rewrite W2. reflexivity.
    + split; [lia|]. intros y Hy. rewrite RT2. destruct (Z.eqb_spec y k) as [->|]; [congruence|]. apply RT. lia.
Qed.

(** The clean-up. *)
Lemma walk_rest_ok q l Tp : core l q -> pinv n (-1) q -> tp_is Tp n q ->
  exists o, (forall S (pair : Z -> Z -> S -> res S) s, walk_rest n Ap Ai pair Tp s = foldp pair o s) /\
    forall q', (forall y, 0 <= y < n -> q' y = ap (y + 1)) -> core (l ++ o) q'.
Proof.
  intros C P [LT RT].
  destruct (for_trace (T := unit) (fun j _ l' => exists q', core l' q' /\ (forall y, 0 <= y < j -> q' y = ap (y + 1)) /\
       (forall y, j <= y < n -> q' y = q y)) 0 n
     (fun S pair j '(_, s) =>
       pj <- rd Tp j ;; pj2 <- rd Ap (j + 1) ;;
       s' <- for_ pj pj2 (fun pj s => i <- rd Ai pj ;; pair i j s) s ;; Ok (tt, s')) tt l) as [[] [o [Tr HI]]]; [lia| | |].
  - exists q. split; auto. split; [intros; lia|auto].
  - intros j [] l1 Hj [q1 [C1 [F1 G1]]]. pose proof (co_q _ _ C j Hj) as Qj.
    destruct (for_trace (T := unit) (fun p _ l' => exists q', core l' q' /\ q' j = p /\ forall y, y <> j -> q' y = q1 y) (q j) (ap (j + 1))
      (fun S pair p '(_, s) => i <- rd Ai p ;; s' <- pair i j s ;; Ok (tt, s')) tt l1) as [[] [o [Tr [q2 [C2 [E2 N2]]]]]]; [lia| | |].
    + exists q1. split; auto. split; auto. apply G1; lia.
    + intros p [] l2 Hp [q2 [C2 [E2 N2]]]. pose proof (pos_nz j p Hj ltac:(lia)) as Hpz. pose proof (Hrows p Hpz) as Hr.
      pose proof (pi_below _ _ _ P j p Hj Hp) as Hb.
      exists tt, [(ai p, j)]. split.
      * intros S pair s. rewrite HAi by auto. simpl. destruct (pair (ai p) j s); reflexivity.
      * exists (fup q2 j (q2 j + 1)). split; [|split; [rewrite fup_eq; lia|intros y Hy; rewrite fup_ne by auto; auto]].
        apply core_visit with (x := ai p); auto; try lia. { rewrite E2; auto. }
        intros [p' [Hp' Ep']]. rewrite N2, G1 in Hp' by lia. apply (pi_todo _ _ _ P j p Hj Hp); [lia|]. exists p'. auto.
    + exists tt, o. split.
      * intros S pair s. rewrite RT, HAp by lia. simpl. specialize (Tr S pair s).
        assert (X : forall lo hi s, for_ lo hi (fun p '(_, s) => i <- rd Ai p ;; s' <- pair i j s ;; Ok (tt, s')) (tt, s) =
                  (s' <- for_ lo hi (fun pj s => i <- rd Ai pj ;; pair i j s) s ;; Ok (tt, s'))).
        { clear. intros lo hi. unfold for_. generalize (Z.to_nat (hi - lo)). intros k. revert lo. induction k as [|k IH]; intros lo s; simpl; auto.
          destruct (rd Ai lo); simpl; auto. destruct (pair _ _ _); simpl; auto. }
        rewrite <- X. exact Tr.
      * exists q2. split; auto. split.
        -- intros y Hy. destruct (Z.eq_dec y j) as [->|]; auto. rewrite N2 by auto. apply F1. lia.
        -- intros y Hy. rewrite N2 by lia. apply G1. lia.
  - exists o. split.
    + intros S pair s. specialize (Tr S pair s). unfold walk_rest.
      assert (X : forall k lo s, forN k lo (fun j '(_, s) => pj <- rd Tp j ;; pj2 <- rd Ap (j + 1) ;;
            s' <- for_ pj pj2 (fun pj s => i <- rd Ai pj ;; pair i j s) s ;; Ok (tt, s')) (tt, s) =
          (s' <- forN k lo (fun j s => pj <- rd Tp j ;; pj2 <- rd Ap (j + 1) ;;
            for_ pj pj2 (fun pj s => i <- rd Ai pj ;; pair i j s) s) s ;; Ok (tt, s'))).
      { clear. intros k. induction k as [|k IH]; intros lo s; simpl; auto.
        destruct (rd Tp lo); simpl; auto. destruct (rd Ap (lo + 1)); simpl; auto. destruct (for_ _ _ _ _); simpl; auto. }
      unfold for_ at 1 in Tr. rewrite X in Tr. unfold for_ at 1.
      destruct (forN _ _ _ _), (foldp _ _ _); simpl in Tr; congruence.
    + destruct HI as [q1 [C1 [F1 _]]]. intros q' Hq'.
      assert (D : forall u v, 0 <= v < n -> dn q1 u v <-> dn q' u v).
      { intros u v Hv. unfold dn. rewrite F1, Hq' by auto. reflexivity. }
      constructor; try apply C1.
      * intros y Hy. rewrite Hq' by auto. pose proof (Hmono y Hy). lia.
      * intros v u Hv Hu. rewrite (co_in _ _ C1 v u Hv Hu). rewrite !D by auto. reflexivity.
Qed.

(** The whole traversal: the neighbour lists it produces are those of A + A' without the diagonal. *)
Theorem walk_ok Tp : zlen Tp = n ->
  exists Tp' l, zlen Tp' = n /\
    (forall S (pair : Z -> Z -> S -> res S) s, walk n Ap Ai pair Tp s = bind (foldp pair l s) (fun s' => Ok (Tp', s'))) /\
    (forall i j, In (i, j) l -> 0 <= i < n /\ 0 <= j < n /\ i <> j) /\
    (forall v, 0 <= v < n -> NoDup (nb l v)) /\
    (forall v u, 0 <= v < n -> 0 <= u < n -> In u (nb l v) <-> u <> v /\ (entry u v \/ entry v u)).
Proof.
  intros LT.
  destruct (for_trace (T := arr Z) (fun k Tp l => exists q, core l q /\ pinv k (-1) q /\ tp_is Tp k q /\ forall y, k <= y < n -> q y = ap y)
    0 n (fun S pair k st => walk_col Ap Ai pair k st) Tp []) as [Tp1 [l1 [Tr [q [C [P [T _]]]]]]]; [lia| | |].
  - exists ap. split; [|split; [|split]].
    + constructor.
      * intros y Hy. pose proof (Hmono y Hy). lia.
      * intros i j [].
      * intros v Hv. apply NoDup_nil.
      * intros v u Hv Hu. split; [intros []|]. intros [_ [[p [Hp _]]|[p [Hp _]]]]; lia.
    + constructor; intros; try lia; auto.
    + split; auto. intros; lia.
    + auto.
  - intros k Tp1 l1 Hk [q [C [P [T Hq]]]].
    destruct (walk_col_ok k q l1 Tp1 Hk C P (Hq k ltac:(lia)) T) as [Tp2 [q2 [o [Tr [C2 [P2 [T2 N2]]]]]]].
    exists Tp2, o. split; auto. exists q2. repeat (split; [auto|]). intros y Hy. rewrite N2 by lia. apply Hq. lia.
  - destruct (walk_rest_ok q l1 Tp1 C P T) as [o [Fo Co]]. specialize (Co (fun y => ap (y + 1)) (fun y _ => eq_refl)).
    exists Tp1, (l1 ++ o). split; [apply T|]. split; [|split; [apply Co|split; [apply Co|]]].
    + intros S pair s. unfold walk. rewrite Tr, foldp_app, !bind_bind. apply bind_ext. intros s'. simpl. rewrite Fo. reflexivity.
    + intros v u Hv Hu. rewrite (co_in _ _ Co v u Hv Hu). reflexivity.
Qed.
End WalkProof.
