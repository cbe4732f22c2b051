(** AMD_2, AMD_1, AMD_aat and AMD_order (src/amd_2.c, amd_1.c, amd_aat.c, amd_order.c): whatever the pattern, the call
    returns a permutation unless memory runs out (claim C35). *)
From Coq Require Import ZArith List Lia Bool.
From RecordUpdate Require Import RecordUpdate.
From Verif Require Import Res Lists Spec SpecLink MAmd AmdBase AmdPre AmdWalk AmdGraph AmdView AmdLists AmdInv AmdRestore AmdPivot AmdInit AmdTree AmdPost.
Import ListNotations.
Open Scope Z_scope.
Open Scope res_scope.

(** ** AMD_2 *)
Lemma AMD_2_ok n iwlen pf alpha aggressive N st iw s (Q : ast -> Prop) : 0 <= n ->
  (forall v u, 0 <= v < n -> In u (N v) -> 0 <= u < n /\ u <> v) -> (forall v, 0 <= v < n -> NoDup (N v)) ->
  (forall v u, 0 <= v < n -> 0 <= u < n -> In u (N v) -> In v (N u)) ->
  (forall v, 0 <= v < n -> 0 <= st v /\ st v + zlen (N v) <= pf) ->
  (forall v u, 0 <= v < n -> 0 <= u < n -> v < u -> st v + zlen (N v) <= st u) ->
  0 <= pf -> pf + n <= iwlen -> (forall v, 0 <= v < n -> cells iw (st v) (N v)) -> (forall q, 0 <= q < pf -> 0 <= iw q < n) ->
  sumz (fun v => zlen (N v)) (zr 0 n) <= pf ->
  is_vec (aPe s) n st -> is_vec (aLen s) n (fun v => zlen (N v)) -> is_pre (aIw s) iwlen pf iw -> pfree s = pf ->
  nel s = 0 -> mindeg s = 0 -> lemax s = 0 -> ndense s = 0 ->
  zlen (aNv s) = n -> zlen (aNext s) = n -> zlen (aLast s) = n -> zlen (aHead s) = n -> zlen (aElen s) = n -> zlen (aDeg s) = n -> zlen (aW s) = n ->
  (forall s', zlen (aLast s') = n -> permutation_array (aLast s') n -> Q s') ->
  wp (AMD_2 n iwlen alpha aggressive s) Q.
Proof.
  intros Hn H1 H2 H3 H4 H5 P0 P1 H6 H7 H8 V1 V2 V3 E1 E2 E3 E4 E5 L1 L2 L3 L4 L5 L6 L7 HQ. unfold AMD_2. cbv zeta.
  wb. apply (init_ok n iwlen pf (Z.min n (Z.max 16 alpha)) N st iw); auto; [lia|]. clear s V1 V2 V3 E1 E2 E3 E4 E5 L1 L2 L3 L4 L5 L6 L7. intros s v Vs L Ne.
  wb. apply (pivots_ok n iwlen pf aggressive P1 s v); auto. clear s v Vs L Ne. intros s v Vs L Ne.
  destruct (LOOP_exit n iwlen pf v L Ne) as [rep [dep [F Fe]]].
  apply (post_phase_ok n iwlen Hn s v rep dep); auto.
Qed.

Lemma cells_from iw p l : (forall t, 0 <= t < zlen l -> iw (p + t) = nth (Z.to_nat t) l 0) -> cells iw p l.
Proof.
  revert p. induction l as [|x l IH]; intros p H; [exact I|]. rewrite zlen_cons in H. pose proof (zlen_nonneg l). split.
  - specialize (H 0 ltac:(lia)). rewrite Z.add_0_r in H. exact H.
  - apply IH. intros t Ht. specialize (H (t + 1) ltac:(lia)). replace (p + (t + 1)) with (p + 1 + t) in H by lia.
    replace (Z.to_nat (t + 1)) with (S (Z.to_nat t)) in H by lia. exact H.
Qed.

Lemma same_len (l1 l2 : list Z) : NoDup l1 -> NoDup l2 -> (forall x, In x l1 <-> In x l2) -> zlen l1 = zlen l2.
Proof.
  intros N1 N2 H. unfold zlen. f_equal. apply Nat.le_antisymm; apply NoDup_incl_length; auto; intros x Hx; apply H; auto.
Qed.

(** ** Sorted patterns *)
Section Sorted.
Variables (n nz : Z) (Ap Ai : arr Z) (ap ai : Z -> Z).
Hypothesis Hn : 0 <= n.
Hypothesis Hap0 : ap 0 = 0.
Hypothesis Hapn : ap n = nz.
Hypothesis Hmono : forall j, 0 <= j < n -> ap j <= ap (j + 1).
Hypothesis HAp : forall j, 0 <= j <= n -> rd Ap j = Ok (ap j).
Hypothesis HAi : forall k, 0 <= k < nz -> rd Ai k = Ok (ai k).
Hypothesis Hrows : forall k, 0 <= k < nz -> 0 <= ai k < n.
Hypothesis Hsort : forall j k, 0 <= j < n -> ap j <= k -> k + 1 < ap (j + 1) -> ai k < ai (k + 1).

Definition GOOD (l : list (Z * Z)) : Prop :=
  pairs_ok n l /\ (forall v, 0 <= v < n -> NoDup (nb l v)) /\
  (forall v u, 0 <= v < n -> 0 <= u < n -> In u (nb l v) <-> u <> v /\ (entry ap ai u v \/ entry ap ai v u)).

Lemma GOOD_rng l v u : GOOD l -> In u (nb l v) -> 0 <= u < n.
Proof. intros [H _] Hu. apply (nb_range n l v u); auto. Qed.

Lemma GOOD_len l l' v : GOOD l -> GOOD l' -> 0 <= v < n -> zlen (nb l v) = zlen (nb l' v).
Proof.
  intros G G' Hv. apply same_len; [apply G; auto|apply G'; auto|]. intros u.
  destruct G as [P [ND IN]] eqn:E. destruct G' as [P' [ND' IN']] eqn:E'. split; intros Hu.
  - apply IN'; auto; [apply (nb_range n l v u); auto|]. apply IN; auto. apply (nb_range n l v u); auto.
  - apply IN; auto; [apply (nb_range n l' v u); auto|]. apply IN'; auto. apply (nb_range n l' v u); auto.
Qed.

(** There are at most 2 nz neighbours. *)
Definition inc (v u : Z) : Z := sumz (fun p => if ai p =? v then 1 else 0) (zr (ap u) (ap (u + 1))).
Definition rown (v : Z) : list Z := filter (fun u => 0 <? inc v u) (zr 0 n).

Lemma inc_nonneg v u : 0 <= inc v u.
Proof. apply sumz_nonneg. intros p _. destruct (ai p =? v); lia. Qed.

Lemma nz_sum : sumz (fun u => ap (u + 1) - ap u) (zr 0 n) = nz.
Proof.
  rewrite <- Hapn. enough (X : forall k, 0 <= k -> sumz (fun u => ap (u + 1) - ap u) (zr 0 k) = ap k) by (apply X; auto).
  intros k Hk. pattern k. apply (zr_ind _ 0); auto.
  intros c Hc IH. rewrite zr_snoc, sumz_app, IH by lia. simpl. lia.
Qed.

Lemma col_pos u p : 0 <= u < n -> ap u <= p < ap (u + 1) -> 0 <= p < nz.
Proof.
  intros Hu Hp. pose proof (mono_steps ap n Hmono 0 u ltac:(lia) ltac:(lia) ltac:(lia)). pose proof (mono_steps ap n Hmono (u + 1) n ltac:(lia) ltac:(lia) ltac:(lia)). lia.
Qed.

Lemma rown_len v : zlen (rown v) <= sumz (inc v) (zr 0 n).
Proof.
  unfold rown. rewrite <- sumz_ones, sumz_filter. apply sumz_le. intros u _. pose proof (inc_nonneg v u). destruct (Z.ltb_spec 0 (inc v u)); lia.
Qed.

Lemma inc_total : sumz (fun v => sumz (inc v) (zr 0 n)) (zr 0 n) = nz.
Proof.
  rewrite sumz_swap. rewrite <- nz_sum. apply sumz_ext. intros u Hu. apply in_zr in Hu. unfold inc. rewrite sumz_swap.
  rewrite (sumz_ext _ (fun _ => 1)).
  - rewrite sumz_ones, zlen_zr. pose proof (Hmono u Hu). lia.
  - intros p Hp. apply in_zr in Hp. pose proof (col_pos u p Hu Hp) as Hz. pose proof (Hrows p Hz).
    rewrite (sumz_ext _ (fun x => if x =? ai p then 1 else 0)); [apply sumz_delta; [apply NoDup_zr|apply in_zr; auto]|].
    intros x _. rewrite Z.eqb_sym. reflexivity.
Qed.

Lemma start_bound l : GOOD l -> 0 <= start l n <= 2 * nz.
Proof.
  intros G. split; [apply sumz_nonneg; intros; apply zlen_nonneg|].
  unfold start. transitivity (sumz (fun v => (ap (v + 1) - ap v) + sumz (inc v) (zr 0 n)) (zr 0 n)).
  - apply sumz_le. intros v Hv. apply in_zr in Hv. pose proof (rown_len v).
    enough (zlen (nb l v) <= zlen (map ai (zr (ap v) (ap (v + 1))) ++ rown v)) by (rewrite zlen_app, zlen_map, zlen_zr in H0; pose proof (Hmono v Hv); lia).
    unfold zlen. apply inj_le. apply NoDup_incl_length; [apply G; auto|]. intros u Hu. pose proof (GOOD_rng l v u G Hu) as Ru.
    apply G in Hu; auto. apply in_app_iff. destruct Hu as [_ [[p [Hp E]]|[p [Hp E]]]].
    + left. apply in_map_iff. exists p. split; auto. apply in_zr; auto.
    + right. unfold rown. apply filter_In. split; [apply in_zr; auto|]. apply Z.ltb_lt. unfold inc.
      enough ((if ai p =? v then 1 else 0) <= sumz (fun p => if ai p =? v then 1 else 0) (zr (ap u) (ap (u + 1)))) by (rewrite E, Z.eqb_refl in H0; lia).
      apply (sumz_ge_term (fun p => if ai p =? v then 1 else 0)); [intros y _; destruct (ai y =? v); lia|apply in_zr; auto].
  - rewrite sumz_plus, nz_sum, inc_total. lia.
Qed.

(** AMD_aat. *)
Lemma AMD_aat_ok Len Tp (Q : Z * arr Z * arr Z -> Prop) : zlen Len = n -> zlen Tp = n -> 2 * nz < 2 ^ 64 ->
  (forall l Len' Tp', GOOD l -> is_vec Len' n (fun v => zlen (nb l v)) -> zlen Tp' = n -> Q (start l n, Len', Tp')) ->
  wp (AMD_aat n Ap Ai Len Tp) Q.
Proof.
  intros LL LT Hz HQ. unfold AMD_aat. wb. apply (wp_fill_pre Len n (fun _ => 0)); auto.
  { intros k a Hk Va. apply (is_pre_wr_next _ _ _ _ _ _ Va); auto. }
  intros Len1 V1. destruct (walk_ok n nz Ap Ai ap ai Hn Hap0 Hapn Hmono HAp HAi Hrows Hsort Tp LT) as [Tp' [l [LT' [HW [PO [ND IN]]]]]].
  assert (G : GOOD l) by (split; auto). rewrite HW. wb. wb. eapply wp_mono; [apply (count_ok n l PO Len1 (fun _ => 0) V1)|]. intros Len2 V2. wok.
  assert (V3 : is_vec Len2 n (fun v => zlen (nb l v))) by (eapply is_vec_ext; [exact V2|]; intros v Hv; cbv beta; lia).
  pose proof (start_bound l G) as SB.
  wb. apply (wp_for_le (fun k s => s = start l k)); auto.
  - intros k s Hk ->. wb. apply (is_vec_rd _ _ _ _ _ V3 Hk). wok. rewrite start_step by lia. unfold size_t. apply Z.mod_small.
    rewrite <- start_step by lia. pose proof (start_mono l (k + 1) n ltac:(lia)). pose proof (start_mono l 0 (k + 1) ltac:(lia)). change (start l 0) with 0 in *. lia.
  - intros s ->. wok. apply HQ; auto.
Qed.

(** AMD_1. *)
Lemma AMD_1_ok alpha aggressive P Pinv Len slen l0 (Q : arr Z -> Prop) : zlen P = n -> zlen Pinv = n -> GOOD l0 ->
  is_vec Len n (fun v => zlen (nb l0 v)) -> start l0 n + 7 * n <= slen ->
  (forall P', zlen P' = n -> permutation_array P' n -> Q P') ->
  wp (AMD_1 n alpha aggressive Ap Ai P Pinv Len slen) Q.
Proof.
  intros LP LPi G0 VL Hs HQ. unfold AMD_1. cbv zeta. set (iwlen := slen - 6 * n).
  assert (LT : zlen (malloc Z n) = n) by (apply zlen_malloc; auto).
  destruct (walk_ok n nz Ap Ai ap ai Hn Hap0 Hapn Hmono HAp HAi Hrows Hsort (malloc Z n) LT) as [Tp' [l [LT' [HW [PO [ND IN]]]]]].
  assert (G : GOOD l) by (split; auto).
  assert (EL : forall v, 0 <= v < n -> zlen (nb l0 v) = zlen (nb l v)) by (intros v Hv; apply GOOD_len; auto).
  assert (ES : start l0 n = start l n). { apply sumz_ext. intros v Hv. apply in_zr in Hv. auto. }
  pose proof (start_bound l G) as SB.
  assert (Hiw : start l n + n <= iwlen) by (unfold iwlen; lia).
  wb. apply (wp_for_le (fun j '(Pe, Sp, pf) => is_pre Pe n j (start l) /\ is_pre Sp n j (start l) /\ pf = start l j)); auto.
  { split; [apply is_pre_0; auto|]. split; [apply is_pre_0; auto|reflexivity]. }
  { intros j [[Pe Sp] pf] Hj [W1 [W2 ->]]. wb. apply (is_pre_wr_next _ _ _ _ _ _ W1); auto. intros Pe' W1'. wb. apply (is_pre_wr_next _ _ _ _ _ _ W2); auto. intros Sp' W2'.
    wb. apply (is_vec_rd _ _ _ _ _ VL Hj). wok. split; auto. split; auto. rewrite start_step, EL by lia. reflexivity. }
  intros [[Pe Sp] pf] [W1 [W2 ->]]. apply is_pre_vec in W1. apply is_pre_vec in W2. rewrite HW. wb. wb.
  eapply wp_mono.
  { apply (store_ok n iwlen l PO ltac:(lia) l [] (malloc Z iwlen, Sp) eq_refl). split; [apply zlen_malloc; lia|]. split.
    - eapply is_vec_ext; [exact W2|]. intros v Hv. cbv beta. change (zlen (nb [] v)) with 0. lia.
    - intros v t Hv Ht. change (zlen (nb [] v)) with 0 in Ht. lia. }
  intros [Iw Sp'] [LI [VSp HI]]. wok.
  assert (RI : forall q, 0 <= q < start l n -> exists v t, 0 <= v < n /\ 0 <= t < zlen (nb l v) /\ q = start l v + t).
  { intros q Hq. destruct (mono_find (start l) n q Hn) as [v [Hv Hq']]; [change (start l 0) with 0; auto|]. rewrite start_step in Hq' by lia.
    exists v, (q - start l v). split; auto. split; lia. }
  wb. apply (AMD_2_ok n iwlen (start l n) alpha aggressive (nb l) (start l) (get 0 Iw)); auto; try reflexivity.
  - intros v u Hv Hu. split; [apply (GOOD_rng l v u G Hu)|]. apply IN in Hu; [tauto|auto|apply (GOOD_rng l v u G Hu)].
  - intros v u Hv Hu H. apply IN; auto. apply IN in H; auto. destruct H as [H1 H2]. split; [congruence|tauto].
  - intros v Hv. rewrite <- start_step by lia. split; [change 0 with (start l 0); apply start_mono; lia|apply start_mono; lia].
  - intros v u Hv Hu L. rewrite <- start_step by lia. apply start_mono; lia.
  - lia.
  - intros v Hv. apply cells_from. intros t Ht. apply get_rd. apply HI; auto.
  - intros q Hq. destruct (RI q Hq) as [v [t [Hv [Ht ->]]]]. rewrite (get_rd 0 _ _ _ (HI v t Hv Ht)). apply (GOOD_rng l v _ G). apply nth_In. unfold zlen in Ht. lia.
  - destruct VL as [A B]. split; auto. intros v Hv. cbn [aLen]. rewrite B by auto. rewrite EL; auto.
  - split; auto. intros q Hq. cbn [aIw]. destruct (RI q Hq) as [v [t [Hv [Ht ->]]]]. rewrite (get_rd 0 _ _ _ (HI v t Hv Ht)). apply HI; auto.
  - apply VSp.
  - intros s' L PP. wok. apply HQ; auto.
Qed.
End Sorted.

(** ** AMD_order *)

Lemma pattern_funs n nz Ap Ai : 0 <= n -> csc_pattern n n Ap Ai nz -> sorted_columns n Ap Ai -> exists ap ai,
  ap 0 = 0 /\ ap n = nz /\ (forall j, 0 <= j < n -> ap j <= ap (j + 1)) /\ (forall j, 0 <= j <= n -> rd Ap j = Ok (ap j)) /\
  (forall k, 0 <= k < nz -> rd Ai k = Ok (ai k)) /\ (forall k, 0 <= k < nz -> 0 <= ai k < n) /\
  (forall j k, 0 <= j < n -> ap j <= k -> k + 1 < ap (j + 1) -> ai k < ai (k + 1)).
Proof.
  intros Hn HP HS. exists (get 0 Ap), (get 0 Ai).
  assert (HAp : forall j, 0 <= j <= n -> rd Ap j = Ok (get 0 Ap j)) by (intros; eapply pattern_jc; eauto).
  split; [apply get_rd, (cp_first _ _ _ _ _ HP)|]. split; [apply get_rd, (cp_last _ _ _ _ _ HP)|].
  split. { intros j Hj. destruct (cp_mono _ _ _ _ _ HP j Hj) as [a [b [X1 [X2 L]]]]. rewrite (get_rd 0 _ _ _ X1), (get_rd 0 _ _ _ X2). auto. }
  split; auto. split. { intros k Hk. destruct (cp_rows _ _ _ _ _ HP k Hk) as [r [E L]]. rewrite (get_rd 0 _ _ _ E). auto. }
  split. { intros k Hk. destruct (cp_rows _ _ _ _ _ HP k Hk) as [r [E L]]. rewrite (get_rd 0 _ _ _ E). auto. }
  intros j k Hj K1 K2. destruct (HS j _ _ k Hj (HAp j ltac:(lia)) (HAp (j + 1) ltac:(lia)) K1 K2) as [r [r' [E1 [E2 L]]]].
  rewrite (get_rd 0 _ _ _ E1), (get_rd 0 _ _ _ E2). auto.
Qed.

Definition SMAX : Z := SIZE_T_MAX / 8.

Lemma SMAX_val : SMAX = 2 ^ 61 - 1. Proof. reflexivity. Qed.

(** The size computation of src/amd_order.c:130-145. *)
Lemma slen_loop n slen0 ok0 : 0 <= n < 2 ^ 61 -> 0 <= slen0 < 2 ^ 64 ->
  wp (for_ 0 7 (fun i '(ok, slen) => if ok : bool then Ok (slen <? size_t (slen + n), size_t (slen + n)) else Ok (ok, slen)) (ok0, slen0))
    (fun '(ok, slen) => (ok = true -> ok0 = true /\ slen = slen0 + 7 * n) /\ 0 <= slen < 2 ^ 64 /\
       (ok0 = true -> 0 < n -> slen0 + 7 * n < 2 ^ 64 -> ok = true)).
Proof.
  intros Hn Hs.
  apply (wp_for_le (fun i '(ok, slen) => (ok = true -> ok0 = true /\ slen = slen0 + i * n) /\ 0 <= slen < 2 ^ 64 /\
       (ok0 = true -> 0 < n -> slen0 + 7 * n < 2 ^ 64 -> ok = true))).
  - lia.
  - split; [intros; split; [auto|lia]|]. split; [lia|auto].
  - intros i [ok slen] Hi [H1 [H2 H3]]. destruct ok.
    + wok. destruct (H1 eq_refl) as [H0 ->]. unfold size_t.
      assert (B : 0 <= (slen0 + i * n + n) mod 2 ^ 64 < 2 ^ 64) by (apply Z.mod_pos_bound; lia).
      destruct (Z.lt_ge_cases (slen0 + i * n + n) (2 ^ 64)) as [L|L].
      * rewrite Z.mod_small in * by nia. split; [intros _; split; auto; lia|]. split; [lia|]. intros. apply Z.ltb_lt. lia.
      * assert (E : (slen0 + i * n + n) mod 2 ^ 64 = slen0 + i * n + n - 2 ^ 64).
        { rewrite <- (Z.mod_add _ (-1)) by lia. apply Z.mod_small. lia. }
        rewrite E in *. split; [intros X; apply Z.ltb_lt in X; lia|]. split; [lia|]. intros _ _ X. nia.
    + wok. split; [discriminate|]. split; auto.
  - intros [ok slen] H. exact H.
Qed.

Lemma wf_pattern n nz Ap Ai : 0 <= n -> csc_pattern n n Ap Ai nz -> 0 <= nz.
Proof.
  intros Hn HP. assert (HAp : forall j, 0 <= j <= n -> rd Ap j = Ok (get 0 Ap j)) by (intros; eapply pattern_jc; eauto).
  assert (M : get 0 Ap 0 <= get 0 Ap n).
  { apply (mono_steps (get 0 Ap) n); try lia. intros j Hj. destruct (cp_mono _ _ _ _ _ HP j Hj) as [a [b [X1 [X2 L]]]]. rewrite (get_rd 0 _ _ _ X1), (get_rd 0 _ _ _ X2). auto. }
  rewrite (get_rd 0 _ _ _ (cp_first _ _ _ _ _ HP)), (get_rd 0 _ _ _ (cp_last _ _ _ _ _ HP)) in M. auto.
Qed.

Lemma pattern_readable n nz Ap Ai : 0 <= n -> csc_pattern n n Ap Ai nz -> readable n Ap Ai.
Proof.
  intros Hn HP. assert (HAp : forall j, 0 <= j <= n -> rd Ap j = Ok (get 0 Ap j)) by (intros; eapply pattern_jc; eauto).
  assert (M : forall j, 0 <= j < n -> get 0 Ap j <= get 0 Ap (j + 1)).
  { intros j Hj. destruct (cp_mono _ _ _ _ _ HP j Hj) as [a [b [X1 [X2 L]]]]. rewrite (get_rd 0 _ _ _ X1), (get_rd 0 _ _ _ X2). auto. }
  split; [intros j Hj; exists (get 0 Ap j); apply HAp; lia|].
  intros j a b k Hj Ea Eb Hk. rewrite HAp in Ea, Eb by lia. injection Ea as <-. injection Eb as <-.
  pose proof (mono_steps _ n M 0 j ltac:(lia) ltac:(lia) ltac:(lia)). pose proof (mono_steps _ n M (j + 1) n ltac:(lia) ltac:(lia) ltac:(lia)).
  rewrite (get_rd 0 _ _ _ (cp_first _ _ _ _ _ HP)) in *. rewrite (get_rd 0 _ _ _ (cp_last _ _ _ _ _ HP)) in *.
  destruct (cp_rows _ _ _ _ _ HP k ltac:(lia)) as [r [E _]]. eauto.
Qed.

(** The sizes AMD_order asks for stay below its limits. *)
Definition fits_memory (n nz : Z) : Prop := 2 * nz + 2 * nz / 5 + 7 * n < SMAX.

Theorem AMD_order_ok mem alpha aggressive n nz Ap Ai P : csc_pattern n n Ap Ai nz -> zlen P = n ->
  exists st P', AMD_order mem alpha aggressive n Ap Ai P = Ok (st, P') /\ zlen P' = n /\
    (st = AMD_OK \/ st = AMD_OK_BUT_JUMBLED \/ st = AMD_OUT_OF_MEMORY) /\
    (st <> AMD_OUT_OF_MEMORY -> permutation_array P' n) /\
    ((forall k, mem k = true) -> fits_memory n nz -> st <> AMD_OUT_OF_MEMORY).
Proof.
  intros HP LP. 
  enough (W : wp (AMD_order mem alpha aggressive n Ap Ai P) (fun '(st, P') => zlen P' = n /\
    (st = AMD_OK \/ st = AMD_OK_BUT_JUMBLED \/ st = AMD_OUT_OF_MEMORY) /\ (st <> AMD_OUT_OF_MEMORY -> permutation_array P' n) /\
    ((forall k, mem k = true) -> fits_memory n nz -> st <> AMD_OUT_OF_MEMORY)))
    by (apply wp_exists in W; destruct W as [[st P'] [E W]]; exists st, P'; auto). unfold AMD_order.
  assert (Hn : 0 <= n) by (rewrite <- LP; apply zlen_nonneg). pose proof (wf_pattern n nz Ap Ai Hn HP) as Hz.
  destruct (Z.ltb_spec n 0); [lia|]. destruct (Z.eqb_spec n 0) as [E0|E0].
  { wok. split; auto. split; [left; auto|]. split; [|discriminate]. intros _. constructor; intros; lia. }
  wb. rewrite (cp_last _ _ _ _ _ HP). wok. destruct (Z.ltb_spec nz 0); [lia|]. fold SMAX.
  destruct (Z.leb_spec SMAX n) as [B1|B1]; [|destruct (Z.leb_spec SMAX nz) as [B2|B2]]; cbn [orb].
  { wok. split; auto. split; [auto|]. split; [congruence|]. intros _ F. unfold fits_memory in F. exfalso. assert (0 <= 2 * nz / 5) by (apply Z.div_pos; lia). lia. }
  { wok. split; auto. split; [auto|]. split; [congruence|]. intros _ F. unfold fits_memory in F. exfalso. assert (0 <= 2 * nz / 5) by (apply Z.div_pos; lia). lia. }
  destruct (C37_valid n n Ap Ai (pattern_readable n nz Ap Ai Hn HP)) as [r [Er [R1 [R2 R3]]]].
  assert (WF : well_formed n n Ap Ai) by (split; auto; split; auto; exists nz; auto).
  assert (Rr : r = AMD_OK /\ sorted_columns n Ap Ai \/ r = AMD_OK_BUT_JUMBLED).
  { destruct (Z.eq_dec r AMD_OK) as [->|N1]; [left; split; auto; apply R2; auto|]. right. apply R3. split; auto. tauto. }
  assert (Rs : r = AMD_OK \/ r = AMD_OK_BUT_JUMBLED) by tauto.
  assert (NI : r =? AMD_INVALID = false) by (destruct Rs as [-> | ->]; reflexivity).
  wb. rewrite Er. wok. rewrite NI.
  assert (OOM : forall P', zlen P' = n -> ~ (forall k, mem k = true) \/ ~ fits_memory n nz ->
     zlen P' = n /\ (AMD_OUT_OF_MEMORY = AMD_OK \/ AMD_OUT_OF_MEMORY = AMD_OK_BUT_JUMBLED \/ AMD_OUT_OF_MEMORY = AMD_OUT_OF_MEMORY) /\
     (AMD_OUT_OF_MEMORY <> AMD_OUT_OF_MEMORY -> permutation_array P' n) /\ ((forall k, mem k = true) -> fits_memory n nz -> AMD_OUT_OF_MEMORY <> AMD_OUT_OF_MEMORY)).
  { intros P' L O. split; auto. split; auto. split; [congruence|]. tauto. }
  destruct (mem 0%nat && mem 1%nat) eqn:M1; cbn [negb].
  2:{ wok. apply OOM; auto. left. intros X. rewrite !X in M1. discriminate. }
  cbv zeta. destruct ((r =? AMD_OK_BUT_JUMBLED) && negb (mem 2%nat && mem 3%nat)) eqn:M2.
  { wok. apply OOM; auto. left. intros X. rewrite !X in M2. rewrite andb_false_r in M2. discriminate. }
  assert (Lm : zlen (malloc Z n) = n) by (apply zlen_malloc; auto).
  (* a sorted pattern with no more entries *)
  assert (CONT : forall Cp Ci Len Pinv nz', csc_pattern n n Cp Ci nz' -> sorted_columns n Cp Ci -> 0 <= nz' <= nz -> zlen Len = n -> zlen Pinv = n ->
    wp ('(nzaat, Len, P) <- AMD_aat n Cp Ci Len P ;;
          let slen := nzaat in
          let ok := slen <=? size_t (slen + nzaat / 5) in
          let slen := size_t (slen + nzaat / 5) in
          '(ok, slen) <- for_ 0 7 (fun i '(ok, slen) =>
            if ok : bool then Ok (slen <? size_t (slen + n), size_t (slen + n)) else Ok (ok, slen)) (ok, slen) ;;
          if (ok : bool) && (slen <? SMAX) && (slen <? Int_MAX) && mem 4%nat then
            P <- AMD_1 n alpha aggressive Cp Ci P Pinv Len slen ;;
            Ok (r, P)
          else Ok (AMD_OUT_OF_MEMORY, P))
      (fun '(st, P') => zlen P' = n /\ (st = AMD_OK \/ st = AMD_OK_BUT_JUMBLED \/ st = AMD_OUT_OF_MEMORY) /\
        (st <> AMD_OUT_OF_MEMORY -> permutation_array P' n) /\ ((forall k, mem k = true) -> fits_memory n nz -> st <> AMD_OUT_OF_MEMORY))).
  { intros Cp Ci Len Pinv nz' HC HS Hz' LL LPi. destruct (pattern_funs n nz' Cp Ci Hn HC HS) as [ap [ai [A1 [A2 [A3 [A4 [A5 [A6 A7]]]]]]]].
    rewrite SMAX_val in *.
    wb. apply (AMD_aat_ok n nz' Cp Ci ap ai Hn A1 A2 A3 A4 A5 A6 A7 Len P); auto; [lia|]. intros l Len' P' G VL LP'. cbv zeta beta iota.
    pose proof (start_bound n nz' ap ai Hn A1 A2 A3 A6 l G) as SB.
    assert (S5 : 0 <= start l n / 5 <= 2 * nz / 5) by (split; [apply Z.div_pos; lia|apply Z.div_le_mono; lia]).
    assert (S6 : 2 * nz / 5 <= 2 * nz) by (apply Z.div_le_upper_bound; lia).
    assert (Sm : size_t (start l n + start l n / 5) = start l n + start l n / 5) by (unfold size_t; apply Z.mod_small; lia).
    rewrite Sm. wb. eapply wp_mono; [apply (slen_loop n (start l n + start l n / 5) (start l n <=? start l n + start l n / 5)); lia|].
    intros [ok slen] [K1 [K2 K3]]. cbv beta iota.
    destruct (ok && (slen <? 2 ^ 61 - 1) && (slen <? Int_MAX) && mem 4%nat) eqn:T.
    - rewrite !andb_true_iff in T. destruct T as [[[T1 T2] T3] T4]. destruct (K1 T1) as [_ Es].
      wb. apply (AMD_1_ok n nz' Cp Ci ap ai Hn A1 A2 A3 A4 A5 A6 A7 alpha aggressive P' Pinv Len' slen l); auto; [lia|].
      intros P2 L2 PP. wok. split; auto. split; [tauto|]. split; auto. intros _ _. destruct Rs as [-> | ->]; discriminate.
    - wok. apply OOM; auto. destruct (mem 4%nat) eqn:M4; [|left; intros X; rewrite X in M4; discriminate]. right. intros F. unfold fits_memory in F. rewrite SMAX_val in F.
      assert (T1 : ok = true) by (apply K3; [apply Z.leb_le; lia|lia|lia]). destruct (K1 T1) as [_ Es]. rewrite T1, andb_true_r in T. cbn [andb] in T.
      assert (T2 : slen <? 2 ^ 61 - 1 = true) by (apply Z.ltb_lt; lia). assert (T3 : slen <? Int_MAX = true) by (apply Z.ltb_lt; unfold Int_MAX; lia).
      rewrite T2, T3 in T. discriminate. }
  destruct Rr as [[-> HS]| ->].
  - change (AMD_OK =? AMD_OK_BUT_JUMBLED) with false. cbv iota. wok. apply (CONT Ap Ai (malloc Z n) (malloc Z n) nz); auto. lia.
  - rewrite Z.eqb_refl. wb. 
    destruct (C38_preprocess n nz Ap Ai (malloc Z (n + 1)) (malloc Z (Z.max nz 1)) (malloc Z n) (malloc Z n) Hn HP) as [Rp [Ri [W [Fl [nz' [EP [HC [Hz' [HS [_ [LW LF]]]]]]]]]]]; auto.
    { apply zlen_malloc; lia. } { rewrite zlen_malloc; lia. }
    rewrite EP. wok. apply (CONT Rp Ri W Fl nz'); auto.
Qed.
