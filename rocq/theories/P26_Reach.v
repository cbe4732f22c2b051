(** C66: the marks that test_reach computes, when it runs off its array, and how they feed the partial
    refactorisation. *)
From Coq Require Import ZArith Reals List Lia Lra Bool.
From Verif Require Import Res Arith Partial Lists MSparse MLdl Spec SpecLink P3_Ldl MInactive P25_Cache Demo.
Import ListNotations.
Open Scope Z_scope.
Open Scope res_scope.

(** ** Statement *)

(** [a] is [i] or is reached from [i] by parent pointers. *)
Inductive ancestor (Parent : arr Z) : Z -> Z -> Prop :=
| anc_self i : ancestor Parent i i
| anc_up i q a : rd Parent i = Ok q -> q <> -1 -> ancestor Parent q a -> ancestor Parent i a.

(** ** Proof *)

Section Reach.
Variables (Parent : arr Z) (N : Z).
Hypothesis Hroot : rd Parent (N - 1) = Ok (-1).

Lemma N_pos : 0 < N.
Proof. apply rd_ok_range in Hroot. lia. Qed.

(** Marks are closed, except at the node [i] the walk has to visit next. *)
Definition open_at (U : arr Z) (i : Z) : Prop :=
  forall x q, marked U N x -> rd Parent x = Ok q -> x = N - 1 \/ (q <> -1 /\ marked U N q) \/ q = i.
Definition closed (U : arr Z) : Prop :=
  forall x q, marked U N x -> rd Parent x = Ok q -> x = N - 1 \/ (q <> -1 /\ marked U N q).

Lemma closed_open U i : closed U -> open_at U i.
Proof. intros H x q Hx Hq. destruct (H x q Hx Hq); auto. Qed.

Lemma closed_anc U i a : closed U -> ancestor Parent i a -> marked U N i -> marked U N a.
Proof.
  intros Hc Ha. induction Ha as [i|i q a Hq Hne Ha IH]; auto. intros Hi. apply IH.
  destruct (Hc i q Hi Hq) as [->|[_ H]]; auto. congruence.
Qed.

Lemma marked_wr U U' i : (forall j, rd U' j = if j =? i then Ok N else rd U j) ->
  forall a, marked U' N a <-> marked U N a \/ a = i.
Proof.
  intros E a. unfold marked. rewrite E. destruct (Z.eqb_spec a i).
  - split; auto.
  - split; [auto|]. intros [H|H]; [auto|tauto].
Qed.

Lemma reach_walk_pw : forall fuel i U, open_at U i -> zlen U = N ->
  pw (reach_walk fuel Parent N i U) (fun U' => zlen U' = N /\ closed U' /\ marked U' N i /\
    (forall a, marked U N a -> marked U' N a) /\
    (forall a, marked U' N a -> marked U N a \/ ancestor Parent i a) /\ (filled U N -> filled U' N)).
Proof.
  assert (Stop : forall i U, open_at U i -> zlen U = N -> marked U N i ->
    zlen U = N /\ closed U /\ marked U N i /\
    (forall a, marked U N a -> marked U N a) /\
    (forall a, marked U N a -> marked U N a \/ ancestor Parent i a) /\ (filled U N -> filled U N)).
  { intros i U Ho LU Hm. split; [auto|]. split; [|auto 6]. intros x q Hx Hq. destruct (Ho x q Hx Hq) as [H|[H|H]]; auto.
    subst q. right. split; auto. intros ->. apply rd_ok_range in Hm. lia. }
  induction fuel as [|fuel IH]; intros i U Ho LU; cbn [reach_walk].
  - pskip. destruct (negb (x =? N) && negb (i =? -1)) eqn:E; [intros r; discriminate|]. apply pw_ok.
    apply Stop; auto. unfold marked. rewrite Ex. f_equal. apply andb_false_iff in E.
    destruct E as [E|E]; apply negb_false_iff, Z.eqb_eq in E; auto. apply rd_ok_range in Ex. lia.
  - pskip. destruct (negb (x =? N) && negb (i =? -1)) eqn:E.
    + apply andb_prop in E. destruct E as [E1 E2]. apply negb_true_iff, Z.eqb_neq in E1. apply negb_true_iff, Z.eqb_neq in E2.
      apply pw_bind, pw_wr. intros U1 HU1 LU1 RU1. pskip.
      pose proof (marked_wr U U1 i RU1) as MW.
      eapply pw_mono.
      { apply (IH x0 U1); [|lia]. intros y q Hy Hq. apply MW in Hy. destruct Hy as [Hy| ->].
        - destruct (Ho y q Hy Hq) as [H|[[H1 H2]|H]]; auto.
          + right. left. split; auto. apply MW. auto.
          + subst q. right. left. split; auto. apply MW. auto.
        - rewrite Ex0 in Hq. injection Hq as <-. auto. }
      intros U2 [L2 [C2 [M2 [K1 [K2 K3]]]]]. split; [auto|]. split; [auto|].
      split; [apply K1, MW; auto|]. split; [intros a Ha; apply K1, MW; auto|]. split.
      * intros a Ha. apply K2 in Ha. destruct Ha as [Ha|Ha].
        -- apply MW in Ha. destruct Ha as [Ha| ->]; auto. right. constructor.
        -- right. apply anc_up with x0; auto. apply rd_ok_range in M2. lia.
      * intros Hf. apply K3. intros j Hj. rewrite RU1. destruct (j =? i); eauto.
    + apply pw_ok. apply Stop; auto. unfold marked. rewrite Ex. f_equal. apply andb_false_iff in E.
      destruct E as [E|E]; apply negb_false_iff, Z.eqb_eq in E; auto. apply rd_ok_range in Ex. lia.
Qed.

(** In a tree with root N - 1 the walk ends. *)
Hypothesis Htree : forall i, 0 <= i < N - 1 -> exists q, rd Parent i = Ok q /\ i < q < N.

Lemma reach_walk_ends : forall fuel i U, 0 <= i < N -> (Z.to_nat (N - 1 - i) <= fuel)%nat ->
  zlen U = N -> filled U N -> marked U N (N - 1) -> exists U', reach_walk fuel Parent N i U = Ok U'.
Proof.
  induction fuel as [|fuel IH]; intros i U Hi Hf LU HU Hm; cbn [reach_walk].
  - assert (i = N - 1) by lia. subst i. rewrite Hm. cbn [bind]. rewrite Z.eqb_refl. cbn [negb andb]. eauto.
  - destruct (HU i Hi) as [u Eu]. rewrite Eu. cbn [bind].
    destruct (Z.eqb_spec u N); cbn [negb andb]; [eauto|].
    destruct (Z.eqb_spec i (-1)); [lia|]. cbn [negb].
    destruct (wr_spec U i N ltac:(lia)) as [U1 [E1 [L1 R1]]]. rewrite E1. cbn [bind].
    assert (Hne : i <> N - 1) by (intros ->; unfold marked in Hm; rewrite Hm in Eu; congruence).
    destruct (Htree i ltac:(lia)) as [q [Eq Hq]]. rewrite Eq. cbn [bind]. apply IH; [lia|lia|lia| |].
    + intros j Hj. rewrite R1. destruct (j =? i); eauto.
    + apply (marked_wr U U1 i R1). auto.
Qed.

End Reach.

(** Marks, for every run that ends. *)
Lemma test_reach_pw Parent Pinv U n m p : 0 <= m -> let N := n + m + p in
  rd Parent (N - 1) = Ok (-1) -> zlen U = N -> (forall x, ~ marked U N x) ->
  pw (test_reach Parent Pinv U n m p) (fun U' => zlen U' = N /\ closed Parent N U' /\ (filled U N -> filled U' N) /\
    marked U' N (N - 1) /\
    (forall j i, n + p <= j < N -> rd Pinv j = Ok i -> marked U' N i) /\
    (forall a, marked U' N a -> a = N - 1 \/ exists j i, n + p <= j < N /\ rd Pinv j = Ok i /\ ancestor Parent i a)).
Proof.
  intros Hm N Hroot LU Hno. unfold test_reach. fold N. apply pw_bind, pw_wr. intros U1 HU1 L1 R1.
  pose proof (marked_wr N U U1 (N - 1) R1) as MW.
  apply (pw_for (fun j U' => zlen U' = N /\ closed Parent N U' /\ (filled U N -> filled U' N) /\ marked U' N (N - 1) /\
    (forall j' i, n + p <= j' < j -> rd Pinv j' = Ok i -> marked U' N i) /\
    (forall a, marked U' N a -> a = N - 1 \/ exists j' i, n + p <= j' < j /\ rd Pinv j' = Ok i /\ ancestor Parent i a))).
  - split; [lia|]. split; [|split; [|split; [|split]]].
    + intros x q Hx _. apply MW in Hx. destruct Hx as [Hx|Hx]; [destruct (Hno x Hx)|auto].
    + intros Hf j Hj. rewrite R1. destruct (j =? N - 1); eauto.
    + apply MW. auto.
    + intros; lia.
    + intros a Ha. apply MW in Ha. destruct Ha as [Ha|Ha]; [destruct (Hno a Ha)|auto].
  - intros j U2 Hj [L2 [C2 [F2 [R2 [M2 A2]]]]]. pskip.
    eapply pw_mono; [apply (reach_walk_pw Parent N (S (length U2)) x U2); auto; apply closed_open; auto|].
    intros U3 [L3 [C3 [M3 [K1 [K2 K3]]]]]. split; [auto|]. split; [auto|]. split; [auto|]. split; [auto|]. split.
    + intros j' i Hj' Ei. destruct (Z.eq_dec j' j) as [->|]; [rewrite Ex in Ei; injection Ei as <-; auto|].
      apply K1. apply (M2 j'); auto. lia.
    + intros a Ha. apply K2 in Ha. destruct Ha as [Ha|Ha].
      * destruct (A2 a Ha) as [H|[j' [i [H1 H2]]]]; auto. right. exists j', i. split; [lia|auto].
      * right. exists j, x. split; [lia|auto].
  - intros U2 H. rewrite Z.max_r in H by lia. replace (n + p + m) with N in H by (unfold N; lia). exact H.
Qed.

(** ** C66 *)

(** When every node other than the last has a parent, the marks are the last node and all ancestors of the
    steps at which the inequality rows are eliminated; they are closed under parents. *)
Theorem C66_marks Parent Pinv U n m p : let N := n + m + p in
  0 <= m -> 0 <= n + p ->
  rd Parent (N - 1) = Ok (-1) -> (forall i, 0 <= i < N - 1 -> exists q, rd Parent i = Ok q /\ i < q < N) ->
  permutation_array Pinv N -> zlen U = N -> filled U N -> (forall x, ~ marked U N x) ->
  exists U', test_reach Parent Pinv U n m p = Ok U' /\ zlen U' = N /\ filled U' N /\
    (forall a, marked U' N a <-> a = N - 1 \/ exists j i, n + p <= j < N /\ rd Pinv j = Ok i /\ ancestor Parent i a) /\
    marks_closed U' Parent N.
Proof.
  intros N Hm Hnp Hroot Htree HP LU HU Hno.
  pose proof (N_pos Parent N Hroot) as HN.
  assert (Hex : exists U', test_reach Parent Pinv U n m p = Ok U').
  { enough (G : wp (test_reach Parent Pinv U n m p) (fun _ => True)).
    { apply wp_exists in G. destruct G as [U' [E _]]. eauto. }
    unfold test_reach. fold N. wb. apply wp_wr; [lia|]. intros U1 L1 R1.
    pose proof (marked_wr N U U1 (N - 1) R1) as MW.
    apply (wp_for_le (fun _ U' => zlen U' = N /\ filled U' N /\ closed Parent N U' /\ marked U' N (N - 1))); auto.
    - lia.
    - split; [lia|]. split; [|split].
      + intros j Hj. rewrite R1. destruct (j =? N - 1); eauto.
      + intros x q Hx _. apply MW in Hx. destruct Hx as [Hx|Hx]; [destruct (Hno x Hx)|auto].
      + apply MW. auto.
    - intros j U2 Hj [L2 [F2 [C2 M2]]]. destruct (pa_range _ _ HP j ltac:(lia)) as [i [Ei Hi]].
      wb. eapply wp_rd; [exact Ei|].
      destruct (reach_walk_ends Parent N Htree (S (length U2)) i U2) as [U3 E3]; auto.
      { unfold zlen in L2. lia. }
      rewrite E3. apply wp_ok.
      destruct (reach_walk_pw Parent N (S (length U2)) i U2 (closed_open _ _ _ _ C2) L2 U3 E3) as [K1 [K2 [K3 [K4 [K5 K6]]]]].
      auto. }
  destruct Hex as [U' E]. exists U'.
  destruct (test_reach_pw Parent Pinv U n m p Hm Hroot LU Hno U' E) as [L [C [F [M [J K]]]]].
  split; [exact E|]. split; [exact L|]. split; [auto|]. split.
  - intros a. split; [apply K|]. intros [->|[j [i [Hj [Ei Ha]]]]]; [exact M|].
    eapply closed_anc; eauto.
  - intros i q Hi Hmk Eq Hne. destruct (C i q Hmk Eq) as [->|[_ H]]; auto. fold N in Hroot. congruence.
Qed.

(** The loop reads UPattern[i] before it tests i != -1: if a walk ends at a root other than the last node,
    no execution completes. *)
Theorem C66_second_root Parent Pinv U n m p j i a : let N := n + m + p in
  0 <= m -> rd Parent (N - 1) = Ok (-1) -> zlen U = N -> (forall x, ~ marked U N x) ->
  n + p <= j < N -> rd Pinv j = Ok i -> ancestor Parent i a -> rd Parent a = Ok (-1) -> a <> N - 1 ->
  forall U', test_reach Parent Pinv U n m p <> Ok U'.
Proof.
  intros N Hm Hroot LU Hno Hj Ei Ha Era Hne U' E.
  destruct (test_reach_pw Parent Pinv U n m p Hm Hroot LU Hno U' E) as [L [C [F [M [J K]]]]].
  assert (Hma : marked U' N a) by (eapply closed_anc; eauto).
  destruct (C a (-1) Hma Era) as [H|[H _]]; [tauto|]. apply H. reflexivity.
Qed.

(** Changing values only in the columns of the inequality rows: the marks cover the change. *)
Theorem C66_cover {F} n m p Parent pp qq U U' Ap Ai (Ax Ax' : arr F) : let N := n + m + p in
  0 <= m -> 0 <= n + p -> permutation_array pp N ->
  (forall k a, 0 <= k < N -> rd pp k = Ok a -> rd qq a = Ok k) ->
  rd Parent (N - 1) = Ok (-1) -> zlen U = N -> (forall x, ~ marked U N x) ->
  test_reach Parent qq U n m p = Ok U' ->
  (forall c a b q, 0 <= c < n + p -> rd Ap c = Ok a -> rd Ap (c + 1) = Ok b -> a <= q < b -> rd Ax' q = rd Ax q) ->
  marks_cover U' N Ap Ai Ax Ax' (Some pp) (Some qq).
Proof.
  intros N Hm Hnp HP Hinv Hroot LU Hno E Hsame k q a b r i Hk Hmk Ea Eb Hq Er Ei Hik.
  destruct (test_reach_pw Parent qq U n m p Hm Hroot LU Hno U' E) as [L [C [F' [M [J K]]]]].
  destruct (pa_range _ _ HP k Hk) as [c [Ec Hc]]. cbn [elim_index] in *. rewrite (get_rd 0 pp k c Ec) in *.
  destruct (Z.lt_ge_cases c (n + p)) as [Hlt|Hge].
  - apply (Hsame c a b q); auto. lia.
  - exfalso. apply Hmk. apply (J c k); [fold N in Hc |- *; lia|]. apply Hinv; auto.
Qed.

(** *** The two functions together, in exact arithmetic

    Factor once; change values only in the columns of the inequality rows (what every iteration of the
    solver does to the KKT matrix); mark with test_reach; refactor the marked rows: the arrays are those of
    LDL_numeric on the new values. *)
Theorem C66_update_and_refactor n m p Ap Ai nz pp q0 Lp Parent Lnz Flag Lp' Parent' Lnz' Flag' qq
  (Ax Ax' : arr R) (w w' w1 w2 : numst RA) r1 r2 Lti0 Ltp0 Lti Ltp U U' (Y : arr R) : let N := n + m + p in
  0 <= m -> 0 <= n + p -> 1 <= N -> csc_pattern N N Ap Ai nz -> permutation_array pp N -> zlen q0 = N ->
  zlen Lp = N + 1 -> zlen Parent = N -> zlen Lnz = N -> zlen Flag = N ->
  LDL_symbolic N Ap Ai Lp Parent Lnz Flag (Some pp) (Some q0) = Ok (Lp', Parent', Lnz', Flag', Some qq) ->
  filled Ax nz -> filled Ax' nz ->
  work_sizes RA N (get 0 Lp' N) w -> work_sizes RA N (get 0 Lp' N) w' ->
  LDL_numeric RA N Ap Ai Ax Lp' Parent' w (Some pp) (Some qq) = Ok (r1, w1) ->
  LDL_numeric RA N Ap Ai Ax' Lp' Parent' w' (Some pp) (Some qq) = Ok (r2, w2) ->
  zlen Lti0 = get 0 Lp' N -> zlen Ltp0 = N + 1 ->
  Transpose_Row_Count N N (nLi RA w1) Lp' Lti0 Ltp0 = Ok (Lti, Ltp) ->
  zlen U = N -> filled U N -> (forall x, ~ marked U N x) ->
  test_reach Parent' qq U n m p = Ok U' ->
  (forall c a b q, 0 <= c < n + p -> rd Ap c = Ok a -> rd Ap (c + 1) = Ok b -> a <= q < b -> rd Ax' q = rd Ax q) ->
  zlen Y = N -> (forall i, 0 <= i < N -> ~ marked U' N i -> rd Y i = Ok 0%R) ->
  exists Lx2 D2 Y2,
    LDL_row_cache_numeric RA N Ap Ai Ax' Ltp Lti (nLi RA w1) Lp' (nLx RA w1) (nD RA w1) Y (Some pp) (Some qq) U' =
      Ok (N, (Lx2, D2, Y2)) /\
    (forall q, 0 <= q < get 0 Lp' N -> exists v r, rd Lx2 q = Ok v /\ rd (nLx RA w2) q = Ok v /\
       rd (nLi RA w1) q = Ok r /\ rd (nLi RA w2) q = Ok r) /\
    (forall i, 0 <= i < N -> exists d, rd D2 i = Ok d /\ rd (nD RA w2) i = Ok d) /\
    (forall i, 0 <= i < N -> rd Y2 i = Ok 0%R).
Proof.
  intros N Hm Hnp HN Hpat HP Lq L1 L2 L3 L4 Hsym HAx HAx' Hw Hw' Hold Hnew LT1 LT2 Htr LU HU Hno E Hsame LY HY0.
  assert (Hord : usable_order N (Some pp) (Some q0)) by (split; eauto).
  destruct (C06_symbolic N Ap Ai nz (Some pp) (Some q0) Lp Parent Lnz Flag ltac:(lia) Hpat Hord L1 L2 L3 L4) as
    [Lp2 [Pa2 [Ln2 [Fl2 [Pi2 [Es [Hinv [Hfor _]]]]]]]].
  rewrite Hsym in Es. injection Es as <- <- <- <- <-. destruct Hinv as [qq' [Eq' [_ [Hinv _]]]]. injection Eq' as <-.
  assert (Hroot : rd Parent' (N - 1) = Ok (-1)).
  { destruct (Hfor (N - 1) ltac:(lia)) as [v [Ev [->|Hv]]]; [exact Ev|lia]. }
  destruct (test_reach_pw Parent' qq U n m p Hm Hroot LU Hno U' E) as [L [C [F [M [J K]]]]].
  apply (C65_refactor N Ap Ai nz (Some pp) (Some q0) Lp Parent Lnz Flag ltac:(lia) Hpat Hord L1 L2 L3 L4
    Lp' Parent' Lnz' Flag' (Some qq) Hsym Ax Ax' w w' w1 w2 r1 r2 HAx HAx' Hw Hw' Hold Hnew Lti0 Ltp0 Lti Ltp LT1 LT2 Htr
    U' (F HU)).
  - intros i q Hi Hmk Eq Hne. destruct (C i q Hmk Eq) as [->|[_ H]]; auto. congruence.
  - eapply (C66_cover n m p Parent' pp qq U U' Ap Ai Ax Ax'); eauto.
  - exact LY.
  - exact HY0.
Qed.

(** ** Cases *)

(** n = 2, m = 1:  K = [2 0 1; 0 3 1; 1 1 -1], eliminated in the order 1, 0, 2.  Only the last step is
    marked; the entry -1 becomes -5. *)
Definition up_p : arr Z := zs [0; 2; 4; 7].
Definition up_i : arr Z := zs [0; 2; 1; 2; 0; 1; 2].
Definition up_x (A : Arith) (v : Z) : arr (car A) := fs A [2; 1; 3; 1; 1; 1; v].
Definition up_w (A : Arith) : numst A :=
  mkNum A (malloc Z 3) (malloc Z 2) (malloc _ 2) (malloc _ 3) (malloc _ 3) (malloc Z 3) (malloc Z 3).

Lemma up_pattern : csc_pattern 3 3 up_p up_i 7.
Proof.
  constructor; [reflexivity| |reflexivity|].
  - intros j Hj; enum j; do 2 eexists; (split; [reflexivity|split; [reflexivity|lia]]).
  - intros k Hk; enum k; eexists; (split; [reflexivity|lia]).
Qed.

Lemma up_values A v : filled (up_x A v) 7.
Proof. intros k Hk. enum k; eexists; reflexivity. Qed.

Lemma up_perm : permutation_array (zs [1; 0; 2]) 3.
Proof. perm_concrete. Qed.

Lemma up_work A : work_sizes A 3 2 (up_w A).
Proof. split; reflexivity. Qed.

Lemma C66_case : exists Lp' Parent' Lnz' Flag' qq,
  LDL_symbolic 3 up_p up_i (malloc _ 4) (malloc _ 3) (malloc _ 3) (malloc _ 3) (Some (zs [1; 0; 2])) (Some (malloc _ 3)) =
    Ok (Lp', Parent', Lnz', Flag', Some qq) /\
  test_reach Parent' qq (zs [0; 0; 0]) 2 1 0 = Ok (zs [0; 0; 3]) /\
  exists w1 w2 Lti Ltp,
    LDL_numeric RA 3 up_p up_i (up_x RA (-1)) Lp' Parent' (up_w RA) (Some (zs [1; 0; 2])) (Some qq) = Ok (3, w1) /\
    LDL_numeric RA 3 up_p up_i (up_x RA (-5)) Lp' Parent' (up_w RA) (Some (zs [1; 0; 2])) (Some qq) = Ok (3, w2) /\
    Transpose_Row_Count 3 3 (nLi RA w1) Lp' (malloc _ 2) (malloc _ 4) = Ok (Lti, Ltp) /\
    exists Lx2 D2 Y2,
    LDL_row_cache_numeric RA 3 up_p up_i (up_x RA (-5)) Ltp Lti (nLi RA w1) Lp' (nLx RA w1) (nD RA w1) (fs RA [0; 0; 0])
      (Some (zs [1; 0; 2])) (Some qq) (zs [0; 0; 3]) = Ok (3, (Lx2, D2, Y2)) /\
    (forall i, 0 <= i < 3 -> exists d, rd D2 i = Ok d /\ rd (nD RA w2) i = Ok d).
Proof.
  assert (Hs : LDL_symbolic 3 up_p up_i (malloc _ 4) (malloc _ 3) (malloc _ 3) (malloc _ 3) (Some (zs [1; 0; 2]))
    (Some (malloc _ 3)) = Ok (zs [0; 1; 2; 2], zs [2; 2; -1], zs [1; 1; 0], zs [2; 2; 2], Some (zs [1; 0; 2]))) by reflexivity.
  exists (zs [0; 1; 2; 2]), (zs [2; 2; -1]), (zs [1; 1; 0]), (zs [2; 2; 2]), (zs [1; 0; 2]). split; [exact Hs|].
  split; [reflexivity|].
  assert (Hord : usable_order 3 (Some (zs [1; 0; 2])) (Some (malloc Z 3))) by (split; [apply up_perm|eexists; split; reflexivity]).
  destruct (C06_numeric 3 up_p up_i 7 (Some (zs [1; 0; 2])) (Some (malloc _ 3)) (malloc _ 4) (malloc _ 3) (malloc _ 3) (malloc _ 3)
    ltac:(lia) up_pattern Hord eq_refl eq_refl eq_refl eq_refl RA (up_x RA (-1)) _ _ _ _ _ (up_w RA) (up_values RA (-1))
    LdlR.div_ok_R Hs (up_work RA)) as [w1 [N1 [HL _]]].
  destruct (C06_numeric 3 up_p up_i 7 (Some (zs [1; 0; 2])) (Some (malloc _ 3)) (malloc _ 4) (malloc _ 3) (malloc _ 3) (malloc _ 3)
    ltac:(lia) up_pattern Hord eq_refl eq_refl eq_refl eq_refl RA (up_x RA (-5)) _ _ _ _ _ (up_w RA) (up_values RA (-5))
    LdlR.div_ok_R Hs (up_work RA)) as [w2 [N2 _]].
  change (get 0 (zs [0; 1; 2; 2]) 3) with 2 in HL.
  assert (HT : exists Lti Ltp, Transpose_Row_Count 3 3 (nLi RA w1) (zs [0; 1; 2; 2]) (malloc _ 2) (malloc _ 4) = Ok (Lti, Ltp)).
  { destruct (SpecLink.csc_link (f0 RA) 3 3 _ _ _ _ ltac:(lia) HL) as [C [R S]].
    pose proof (TransposeProofs.Transpose_Row_Count_ok RA 3 3 (nLi RA w1) (zs [0; 1; 2; 2]) (nLx RA w1)
      (column (f0 RA) (zs [0; 1; 2; 2]) (nLi RA w1) (nLx RA w1)) (malloc _ 2) (malloc _ 4) ltac:(lia) ltac:(lia) C R eq_refl) as G.
    rewrite S in G. specialize (G eq_refl). apply wp_exists in G. destruct G as [[Lti Ltp] [G _]]. eauto. }
  destruct HT as [Lti [Ltp HT]].
  exists w1, w2, Lti, Ltp. split; [exact N1|]. split; [exact N2|]. split; [exact HT|].
  destruct (C66_update_and_refactor 2 1 0 up_p up_i 7 (zs [1; 0; 2]) (malloc _ 3) (malloc _ 4) (malloc _ 3) (malloc _ 3) (malloc _ 3)
    _ _ _ _ (zs [1; 0; 2]) (up_x RA (-1)) (up_x RA (-5)) (up_w RA) (up_w RA) w1 w2 3 3 (malloc _ 2) (malloc _ 4) Lti Ltp
    (zs [0; 0; 0]) (zs [0; 0; 3]) (fs RA [0; 0; 0]) ltac:(lia) ltac:(lia) ltac:(lia) up_pattern up_perm eq_refl eq_refl eq_refl eq_refl eq_refl
    Hs (up_values RA _) (up_values RA _) (up_work RA) (up_work RA) N1 N2 eq_refl eq_refl HT) as [Lx2 [D2 [Y2 [E [_ [H _]]]]]].
  - reflexivity.
  - intros k Hk. change (2 + 1 + 0) with 3 in Hk. enum k; eexists; reflexivity.
  - intros x Hx. change (2 + 1 + 0) with 3 in Hx. unfold marked in Hx. pose proof (rd_ok_range _ _ _ Hx) as Hr.
    change (zlen (zs [0; 0; 0])) with 3 in Hr. enum x; discriminate Hx.
  - reflexivity.
  - intros c a b q Hc Ea Eb Hq. change (2 + 0) with 2 in Hc.
    assert (Hq4 : 0 <= q < 4) by (enum c; vm_compute in Ea, Eb; injection Ea as <-; injection Eb as <-; lia).
    clear Hq. enum q; reflexivity.
  - reflexivity.
  - intros i Hi Hm. change (2 + 1 + 0) with 3 in *. enum i; [reflexivity|reflexivity|]. exfalso. apply Hm. reflexivity.
  - exists Lx2, D2, Y2. split; [exact E|exact H].
Qed.

(** Two separate one-variable problems, n = 2, m = 2, G = I:  the forest of the KKT matrix has two roots
    and test_reach reads UPattern[-1]. *)
Definition sep_p : arr Z := zs [0; 2; 4; 6; 8].
Definition sep_i : arr Z := zs [0; 2; 1; 3; 0; 2; 1; 3].

Lemma C66_in_bounds_refuted : exists Lp' Parent' Lnz' Flag' qq,
  LDL_symbolic 4 sep_p sep_i (malloc _ 5) (malloc _ 4) (malloc _ 4) (malloc _ 4) (Some (zs [0; 1; 2; 3])) (Some (malloc _ 4)) =
    Ok (Lp', Parent', Lnz', Flag', Some qq) /\
  test_reach Parent' qq (zs [0; 0; 0; 0]) 2 2 0 = Ub OobRead.
Proof. do 5 eexists. split; reflexivity. Qed.

Print Assumptions C66_marks.
Print Assumptions C66_second_root.
Print Assumptions C66_cover.
Print Assumptions C66_update_and_refactor.
Print Assumptions C66_case.
Print Assumptions C66_in_bounds_refuted.
