(** Dense to sparse conversion (properties C01, C02, C34). *)
From Coq Require Import ZArith Reals List Lia Lra Bool.
From Verif Require Import Res Arith Lists MSparse Csc Flat SemVec.
Import ListNotations.
Open Scope Z_scope.
Open Scope res_scope.

Section WithArith.
Variable A : Arith.
Notation F := (car A).

(** Column [j] of a dense matrix given entry by entry: its nonzero entries, rows increasing. *)
Definition dense_col (m : Z) (d : Z -> Z -> F) (j : Z) : list (Z * F) :=
  filter (fun e => fneq0 A (snd e)) (map (fun i => (i, d i j)) (zr 0 m)).

Lemma dense_col_succ k d j : 0 <= k ->
  dense_col (k + 1) d j = dense_col k d j ++ (if fneq0 A (d k j) then [(k, d k j)] else []).
Proof. intros H. unfold dense_col. rewrite zr_snoc, map_app, filter_app by lia. reflexivity. Qed.

Lemma dense_col_rows m d j r v : In (r, v) (dense_col m d j) -> 0 <= r < m /\ v = d r j /\ fneq0 A v = true.
Proof.
  unfold dense_col. rewrite filter_In, in_map_iff. intros [[i [E Hi]] Hv]. inversion E; subst.
  apply in_zr in Hi. auto.
Qed.

Lemma dense_col_in m d j i : 0 <= i < m -> fneq0 A (d i j) = true -> In (i, d i j) (dense_col m d j).
Proof.
  intros Hi Hv. unfold dense_col. rewrite filter_In, in_map_iff. split; auto.
  exists i. split; auto. apply in_zr; auto.
Qed.

(** The second pass, common to both layouts: append the nonzeros of column [j]. *)
Lemma fill_column m (get : Z -> res F) d j (Ai : arr Z) (Ax : arr F) count cap l0 :
  0 <= m -> (forall i, 0 <= i < m -> get i = Ok (d i j)) ->
  logged Ai Ax count cap l0 -> zlen l0 + zlen (dense_col m d j) <= cap ->
  wp (for_ 0 m (fun i st =>
        let '(Ai, Ax, count) := st in
        v <- get i ;;
        if fneq0 A v then
          Ai <- wr Ai count i ;; Ax <- wr Ax count v ;; Ok (Ai, Ax, count + 1)
        else Ok (Ai, Ax, count)) (Ai, Ax, count))
     (fun st => let '(Ai, Ax, count) := st in logged Ai Ax count cap (l0 ++ dense_col m d j)).
Proof.
  intros Hm Hg HL Hc.
  eapply (wp_for_le (fun i st => let '(Ai, Ax, count) := st in
           logged Ai Ax count cap (l0 ++ dense_col i d j))); auto.
  - unfold dense_col. simpl. rewrite app_nil_r. exact HL.
  - intros i [[Ai' Ax'] c'] Hi L. wb. rewrite Hg by lia. wok.
    assert (Hle : zlen (dense_col (i + 1) d j) <= zlen (dense_col m d j)).
    { unfold dense_col. rewrite <- !cnt_filter. unfold cnt. rewrite !sumz_map.
      apply sumz_mono_zr; [|lia]. intros x _. simpl. destruct (fneq0 A (d x j)); lia. }
    rewrite dense_col_succ, zlen_app in Hle by lia. rewrite dense_col_succ by lia.
    destruct (fneq0 A (d i j)) eqn:E.
    + rewrite zlen_cons, zlen_nil in Hle. pose proof L as [L1 L2 L3 _ _].
      rewrite zlen_app in L3. pose proof (zlen_nonneg l0). pose proof (zlen_nonneg (dense_col i d j)).
      wb. eapply wp_mono; [apply wp_wr_eq; lia|]. intros Ai2 W1.
      wb. eapply wp_mono; [apply wp_wr_eq; lia|]. intros Ax2 W2.
      wok. rewrite app_assoc. eapply logged_push; eauto.
    + wok. rewrite app_nil_r. auto.
Qed.

(** densetosparse: [p] holds [d i j] at position j*m+i. *)
Lemma densetosparse_ok m n p d :
  0 <= m -> 0 <= n ->
  (forall i j, 0 <= i < m -> 0 <= j < n -> rd p (j * m + i) = Ok (d i j)) ->
  wp (densetosparse A m n p) (fun M => ReprX M m n (dense_col m d)).
Proof.
  intros Hm Hn Hp. unfold densetosparse. set (col := dense_col m d).
  wb. eapply wp_mono; [apply (fill_ok (fun _ => 0)); [lia|apply zlen_malloc; lia|reflexivity]|].
  intros Ap HAp. wb.
  eapply (wp_for_le (fun j st => let '(Ap, count) := st in
     count = start col j /\ zlen Ap = n + 1 /\ (forall i, 0 <= i <= j -> rd Ap i = Ok (start col i)))); auto.
  { destruct HAp as [L R]. split; [reflexivity|split]; auto. intros i Hi. assert (i = 0) by lia. subst.
    rewrite R by lia. reflexivity. }
  { intros j [Ap' count] Hj [-> [L R]]. wb.
    eapply (wp_for_le (fun i count => count = start col j + zlen (dense_col i d j))); auto.
    - unfold dense_col. simpl. rewrite zlen_nil. lia.
    - intros i c Hi ->. wb. eapply wp_rd; [apply Hp; lia|]. wok. rewrite dense_col_succ, zlen_app by lia.
      destruct (fneq0 A (d i j)); rewrite ?zlen_cons, ?zlen_nil; lia.
    - intros c ->. fold (col j). wb. apply wp_wr; [lia|]. intros Ap2 L2 R2. wok.
      split; [rewrite start_succ by lia; auto|split]; [lia|].
      intros i Hi. rewrite R2. destruct (Z.eqb_spec i (j + 1)) as [->|]; [rewrite start_succ by lia; auto|].
      apply R; lia. }
  intros [Ap1 cnt1] [-> [L1 R1]]. cbn [fst snd]. wb.
  pose proof (start_nonneg col n).
  eapply (wp_for_le (fun j st => let '(Ai, Ax, count) := st in
     logged Ai Ax count (start col n) (flat col j))); auto.
  { apply logged_nil; apply zlen_malloc; auto. }
  { intros j [[Ai Ax] count] Hj HL. rewrite flat_succ by lia.
    eapply (fill_column m (fun i => rd p (j * m + i)) d j); [lia| |exact HL|].
    - intros; apply Hp; lia.
    - rewrite zlen_flat. fold (col j). rewrite <- start_succ by lia. apply start_mono; lia. }
  intros [[Ai Ax] count] HL. wok. pose proof HL as [E1 E2 E3 _ _]. rewrite zlen_flat in E3.
  split; simpl; auto. split; simpl; auto.
  - eapply logged_csc; eauto.
  - intros j r v _ Hin. apply dense_col_rows in Hin. tauto.
Qed.

(** densetosparse_ROWMAJOR: [p] holds [d i j] at position i*n+j. *)
Lemma densetosparse_ROWMAJOR_ok m n p d :
  0 <= m -> 0 <= n ->
  (forall i j, 0 <= i < m -> 0 <= j < n -> rd p (i * n + j) = Ok (d i j)) ->
  wp (densetosparse_ROWMAJOR A m n p) (fun M => ReprX M m n (dense_col m d)).
Proof.
  intros Hm Hn Hp. unfold densetosparse_ROWMAJOR. set (col := dense_col m d).
  wb. eapply wp_mono; [apply (fill_ok (fun _ => 0)); [lia|apply zlen_malloc; lia|reflexivity]|].
  intros Ap HAp. wb.
  (* counting pass: Ap[j+1] = entries of column j in the first i rows *)
  eapply (wp_for_le (fun i st => let '(Ap, count) := st in
     zlen Ap = n + 1 /\ rd Ap 0 = Ok 0 /\ (forall j, 0 <= j < n -> rd Ap (j + 1) = Ok (zlen (dense_col i d j))) /\
     count = sumz (fun j => zlen (dense_col i d j)) (zr 0 n))); auto.
  { destruct HAp as [L R]. repeat split; auto.
    - rewrite R by lia. auto.
    - intros j Hj. rewrite R by lia. reflexivity.
    - symmetry. apply sumz_zero. intros; reflexivity. }
  { intros i [Ap' count] Hi [L [R0 [R Hc]]].
    eapply (wp_for_le (fun k st => let '(Ap, count) := st in
     zlen Ap = n + 1 /\ rd Ap 0 = Ok 0 /\
     (forall j, 0 <= j < k -> rd Ap (j + 1) = Ok (zlen (dense_col (i + 1) d j))) /\
     (forall j, k <= j < n -> rd Ap (j + 1) = Ok (zlen (dense_col i d j))) /\
     count = sumz (fun j => zlen (dense_col (i + 1) d j)) (zr 0 k)
           + sumz (fun j => zlen (dense_col i d j)) (zr k n))); auto.
    - repeat split; auto. intros; lia.
    - intros k [Ap2 c2] Hk [L2 [R02 [R2 [R3 Hc2]]]]. wb. eapply wp_rd; [apply Hp; lia|].
      rewrite (zr_cons k n) in Hc2 by lia. simpl in Hc2.
      pose proof (dense_col_succ i d k ltac:(lia)) as HS. apply (f_equal zlen) in HS. rewrite zlen_app in HS.
      destruct (fneq0 A (d i k)) eqn:E.
      + wb. eapply wp_rd; [apply R3; lia|]. wb. apply wp_wr; [lia|]. intros Ap3 L3 R4. wok.
        rewrite zlen_cons, zlen_nil in HS.
        repeat split; try lia.
        * rewrite R4. destruct (Z.eqb_spec 0 (k + 1)); [lia|]. auto.
        * intros j Hj. rewrite R4. destruct (Z.eqb_spec (j + 1) (k + 1)).
          { assert (j = k) by lia. subst. f_equal. lia. } apply R2; lia.
        * intros j Hj. rewrite R4. destruct (Z.eqb_spec (j + 1) (k + 1)); [lia|]. apply R3; lia.
        * rewrite zr_snoc, sumz_app by lia. simpl. lia.
      + wok. rewrite zlen_nil in HS. repeat split; auto.
        * intros j Hj. destruct (Z.eq_dec j k) as [->|]; [rewrite R3 by lia; f_equal; lia|apply R2; lia].
        * intros j Hj. apply R3; lia.
        * rewrite zr_snoc, sumz_app by lia. simpl. lia.
    - intros [Ap2 c2] [L2 [R02 [R2 [_ Hc2]]]]. rewrite (zr_nil n n) in Hc2 by lia. simpl in Hc2.
      repeat split; auto; lia. }
  intros [Ap1 cnt1] [L1 [R0 [R1 Hc1]]]. cbn [fst snd].
  change (cnt1 = start col n) in Hc1. subst cnt1. wb.
  pose proof (start_nonneg col n).
  eapply (wp_for_le (fun j st => let '(Ap, (Ai, Ax, count)) := st in
     zlen Ap = n + 1 /\ (forall i, 0 <= i <= j -> rd Ap i = Ok (start col i)) /\
     (forall i, j <= i < n -> rd Ap (i + 1) = Ok (zlen (col i))) /\
     logged Ai Ax count (start col n) (flat col j))); auto.
  { repeat split; auto.
    - intros i Hi. assert (i = 0) by lia. subst. auto.
    - apply zlen_malloc; auto.
    - apply zlen_malloc; auto.
    - intros [|t]; discriminate.
    - intros [|t]; discriminate. }
  { intros j [Ap2 [[Ai Ax] count]] Hj [L2 [R2 [R3 HL]]]. wb.
    eapply wp_mono.
    { eapply (fill_column m (fun i => rd p (i * n + j)) d j); [lia| |exact HL|].
      - intros; apply Hp; lia.
      - rewrite zlen_flat. fold (col j). rewrite <- start_succ by lia. apply start_mono; lia. }
    intros [[Ai2 Ax2] c2] HL2. wb. eapply wp_rd; [apply R3; lia|]. wb. eapply wp_rd; [apply R2; lia|].
    wb. apply wp_wr; [lia|]. intros Ap3 L3 R4. wok. repeat split; try lia.
    - intros i Hi. rewrite R4. destruct (Z.eqb_spec i (j + 1)) as [->|].
      + f_equal. rewrite start_succ by lia. lia.
      + apply R2; lia.
    - intros i Hi. rewrite R4. destruct (Z.eqb_spec (i + 1) (j + 1)); [lia|]. apply R3; lia.
    - apply HL2.
    - apply HL2.
    - rewrite flat_succ by lia. apply HL2.
    - rewrite flat_succ by lia. apply HL2.
    - rewrite flat_succ by lia. apply HL2. }
  intros [Ap2 [[Ai Ax] count]] [L2 [R2 [_ HL]]]. wok. pose proof HL as [E1 E2 E3 _ _]. rewrite zlen_flat in E3.
  split; simpl; auto. split; simpl; auto.
  - eapply logged_csc; eauto.
  - intros j r v _ Hin. apply dense_col_rows in Hin. tauto.
Qed.

End WithArith.

(** In exact arithmetic the represented matrix is [d]. *)
Lemma dense_col_ent m d i j : 0 <= i < m -> ent (dense_col RA m d j) i = d i j.
Proof.
  intros Hi. unfold ent, dense_col. rewrite sumr_filter, sumr_map. cbn [fst snd].
  rewrite (sumr_ext _ (fun x => if x =? i then d x j else 0%R)).
  - apply (sumr_delta i (fun x => d x j)); [apply NoDup_zr|apply in_zr; auto].
  - intros x _. unfold fneq0. simpl. destruct (x =? i); [|destruct (negb _); auto].
    destruct (Reqb (d x j) 0) eqn:E; simpl; auto. apply Reqb_true in E. rewrite E. reflexivity.
Qed.
