(** The remaining vector routines: generic functional meaning. *)
From Coq Require Import ZArith Reals List Lia Lra Bool.
From Verif Require Import Res Arith Lists MSparse Csc SemVec TransposeProofs KktProofs MLdl MSolver
  LdlSpec LdlSym LdlNum LdlFun.
Import ListNotations.
Open Scope Z_scope.
Open Scope res_scope.

(** ** Overwriting values of a stored matrix at given positions *)

Fixpoint ovl_l {F} (pos : Z) (w : Z -> option F) (l : list (Z * F)) : list (Z * F) :=
  match l with
  | [] => []
  | (r, v) :: l' => (r, match w pos with Some v' => v' | None => v end) :: ovl_l (pos + 1) w l'
  end.

Definition ovl {F} (col : cols F) (w : Z -> option F) : cols F := fun j => ovl_l (start col j) w (col j).

Lemma ovl_l_fst {F} pos w (l : list (Z * F)) : map fst (ovl_l pos w l) = map fst l.
Proof. revert pos. induction l as [|[r v] l IH]; intros pos; simpl; auto. now rewrite IH. Qed.

Lemma ovl_l_len {F} pos w (l : list (Z * F)) : zlen (ovl_l pos w l) = zlen l.
Proof. rewrite <- (zlen_map fst (ovl_l pos w l)), ovl_l_fst, zlen_map. reflexivity. Qed.

Lemma ovl_fst {F} (col : cols F) w j : map fst (ovl col w j) = map fst (col j).
Proof. apply ovl_l_fst. Qed.

Lemma ovl_start {F} (col : cols F) w j : start (ovl col w) j = start col j.
Proof. apply start_ext. intros. apply ovl_l_len. Qed.

Lemma ovl_l_nth {F} pos w (l : list (Z * F)) t r v :
  nth_error (ovl_l pos w l) t = Some (r, v) ->
  exists v0, nth_error l t = Some (r, v0) /\ v = match w (pos + Z.of_nat t) with Some v' => v' | None => v0 end.
Proof.
  revert pos t. induction l as [|[r0 v0] l IH]; intros pos [|t] H; simpl in *; try discriminate.
  - inversion H; subst. exists v0. split; auto. replace (pos + Z.of_nat 0) with pos by lia. reflexivity.
  - destruct (IH _ _ H) as [v1 [E1 E2]]. exists v1. split; auto.
    replace (pos + Z.of_nat (S t)) with (pos + 1 + Z.of_nat t) by lia. auto.
Qed.

Lemma ovl_l_ext {F} pos w w' (l : list (Z * F)) :
  (forall t, 0 <= t < zlen l -> w (pos + t) = w' (pos + t)) -> ovl_l pos w l = ovl_l pos w' l.
Proof.
  revert pos. induction l as [|[r v] l IH]; intros pos H; simpl; auto.
  rewrite zlen_cons in H. pose proof (zlen_nonneg l).
  pose proof (H 0 ltac:(lia)) as E. rewrite Z.add_0_r in E. rewrite E. f_equal. apply IH.
  intros t Ht. replace (pos + 1 + t) with (pos + (t + 1)) by lia. apply H. lia.
Qed.

Lemma ovl_l_none {F} pos (w : Z -> option F) l :
  (forall t, 0 <= t < zlen l -> w (pos + t) = None) -> ovl_l pos w l = l.
Proof.
  revert pos. induction l as [|[r v] l IH]; intros pos H; simpl; auto.
  rewrite zlen_cons in H. pose proof (zlen_nonneg l).
  pose proof (H 0 ltac:(lia)) as E. rewrite Z.add_0_r in E. rewrite E. f_equal. apply IH.
  intros t Ht. replace (pos + 1 + t) with (pos + (t + 1)) by lia. apply H. lia.
Qed.

Lemma ovl_l_app {F} pos (w : Z -> option F) l1 l2 :
  ovl_l pos w (l1 ++ l2) = ovl_l pos w l1 ++ ovl_l (pos + zlen l1) w l2.
Proof.
  revert pos. induction l1 as [|[r v] l IH]; intros pos; simpl.
  - rewrite zlen_nil, Z.add_0_r. reflexivity.
  - rewrite IH, zlen_cons. f_equal. f_equal. f_equal. lia.
Qed.

(** Overwriting twice, the second time at least where the first did. *)
Lemma ovl_l_ovl_l {F} pos w1 w2 (l : list (Z * F)) :
  (forall q v, w1 q = Some v -> exists v', w2 q = Some v') ->
  ovl_l pos w2 (ovl_l pos w1 l) = ovl_l pos w2 l.
Proof.
  intros H. revert pos. induction l as [|[r v] l IH]; intros pos; simpl; auto.
  rewrite IH. f_equal. f_equal. destruct (w2 pos) eqn:E2; auto.
  destruct (w1 pos) eqn:E1; auto. destruct (H _ _ E1) as [v' E]. congruence.
Qed.

Lemma ovl_ovl {F} (col : cols F) w1 w2 j :
  (forall q v, w1 q = Some v -> exists v', w2 q = Some v') -> ovl (ovl col w1) w2 j = ovl col w2 j.
Proof. intros H. unfold ovl at 1. rewrite ovl_start. apply ovl_l_ovl_l. auto. Qed.

Lemma ovl_rows {F} (col : cols F) w m n : rows_in m n col -> rows_in m n (ovl col w).
Proof.
  intros H j r v Hj Hin.
  assert (In r (map fst (ovl col w j))) by (apply in_map_iff; exists (r, v); auto).
  rewrite ovl_fst in H0. apply in_map_iff in H0. destruct H0 as [[r' v'] [E Hin']]. simpl in E. subst.
  eapply H; eauto.
Qed.

Lemma KktRep_ovl_ext {F} (K : smat F) N cap c1 c2 :
  KktRep K N cap c1 -> (forall j, 0 <= j < N -> c1 j = c2 j) -> KktRep K N cap c2.
Proof.
  intros [] E. split; auto.
  - eapply Csc_ext; eauto.
  - intros j r v Hj Hin. rewrite <- E in Hin by auto. eapply kr_row; eauto.
  - replace (start c2 N) with (start c1 N); auto. apply start_ext. intros i Hi. rewrite E; auto.
Qed.

(** ** Same pattern, same symbolic data *)

Section Same.
Context {F : Type}.
Variables (n : Z) (Pf Qf par : Z -> Z) (c1 c2 : cols F).
Hypothesis Hfst : forall j, map fst (c1 j) = map fst (c2 j).

Lemma brows_same k : brows Pf Qf c1 k = brows Pf Qf c2 k.
Proof.
  unfold brows. rewrite <- (map_map fst Qf), <- (map_map fst Qf). now rewrite Hfst.
Qed.

Lemma forest_rows rows rows' : (forall k, rows k = rows' k) -> forest n par rows -> forest n par rows'.
Proof.
  intros E [F1 F2 F3]. split; auto.
  - intros k Hk. rewrite <- E. auto.
  - intros i k Hi. rewrite <- E. auto.
Qed.

Lemma forest_same : forest n par (brows Pf Qf c1) -> forest n par (brows Pf Qf c2).
Proof. apply forest_rows. intros; apply brows_same. Qed.

End Same.

Lemma Lpf_same A n Pf Qf par (c1 c2 : cols (car A)) j :
  (forall j, map fst (c1 j) = map fst (c2 j)) -> Lpf A n c1 Pf Qf par j = Lpf A n c2 Pf Qf par j.
Proof.
  intros H. unfold Lpf. apply sumz_ext. intros i _. unfold lnzf, lcnt, cnt. apply sumz_ext. intros k _.
  rewrite (brows_same Pf Qf c1 c2 H). reflexivity.
Qed.

Lemma SymKkt_same A n Pf Qf par (c1 c2 : cols (car A)) k :
  (forall j, map fst (c1 j) = map fst (c2 j)) -> SymKkt A n c1 Pf Qf par k -> SymKkt A n c2 Pf Qf par k.
Proof.
  intros H []. split; auto.
  - intros j Hj. rewrite <- (Lpf_same A n Pf Qf par c1 c2) by auto. auto.
  - rewrite <- (Lpf_same A n Pf Qf par c1 c2) by auto. auto.
  - rewrite <- (Lpf_same A n Pf Qf par c1 c2) by auto. auto.
Qed.

Section WithArith.
Variable A : Arith.
Notation F := (car A).
Notation zero := (f0 A).
Notation one := (f1 A).

(** ** Updating the KKT matrix *)

(** What updatekktmatrix writes: position -> value; the last write to a position wins. *)
Definition updw (col : cols F) (off m : Z) (d : Z -> F) (pos : Z) : option F :=
  fold_left (fun acc i => if pos =? start col (off + i + 1) - 1 then Some (d i) else acc) (zr 0 m) None.

Lemma updw_succ col off m d pos : 0 <= m ->
  updw col off (m + 1) d pos = if pos =? start col (off + m + 1) - 1 then Some (d m) else updw col off m d pos.
Proof. intros H. unfold updw. rewrite zr_snoc, fold_left_app by lia. reflexivity. Qed.

Lemma updw_dom col off m d d' pos v : 0 <= m ->
  updw col off m d pos = Some v -> exists v', updw col off m d' pos = Some v'.
Proof.
  intros Hm. revert v. pattern m. revert m Hm. apply zr_ind.
  - intros v H. discriminate H.
  - intros m Hm IH v. rewrite !updw_succ by auto. destruct (pos =? _); eauto.
Qed.

Lemma updw_start c1 c2 off m d pos :
  (forall j, start c1 j = start c2 j) -> updw c1 off m d pos = updw c2 off m d pos.
Proof. intros H. unfold updw. apply fold_left_ext_in. intros s x _. rewrite H. reflexivity. Qed.

(** The update loop, whatever value is computed for the i-th entry. *)
Lemma upd_loop_ok (K : smat F) N cap col off m (val : Z -> res F) d :
  KktRep K N cap col -> 0 <= off -> 0 <= m -> off + m <= N ->
  (0 < m -> 1 <= start col (off + 1)) ->
  (forall i, 0 <= i < m -> val i = Ok (d i)) ->
  wp (for_ off (off + m) (fun i kpr =>
        e <- rd (jc K) (i + 1) ;; v <- val (i - off) ;; wr kpr (e - 1) v) (pr K))
     (fun kpr => KktRep (mkSmat (jc K) (ir K) kpr (sn K) (sm K) (nnz K)) N cap (ovl col (updw col off m d)) /\
        forall q, rd kpr q = match updw col off m d q with Some v => Ok v | None => rd (pr K) q end).
Proof.
  intros HK Hoff Hm HN Hpos Hval.
  apply (wp_for_le (fun i kpr => zlen kpr = cap /\
     forall q, rd kpr q = match updw col off (i - off) d q with Some v => Ok v | None => rd (pr K) q end)).
  - lia.
  - split; [apply HK|]. intros q. replace (off - off) with 0 by lia. reflexivity.
  - intros i kpr Hi [L R]. wb. eapply wp_rd; [apply (csc_jc _ _ _ _ _ (kr_csc _ _ _ _ HK)); lia|].
    rewrite Hval by lia. wb. wok.
    assert (1 <= start col (off + 1)) by (apply Hpos; lia).
    pose proof (start_mono col (off + 1) (i + 1) ltac:(lia)).
    pose proof (start_mono col (i + 1) N ltac:(lia)). pose proof (kr_cap _ _ _ _ HK).
    apply wp_wr; [lia|]. intros a' L' R'. split; [lia|]. intros q. rewrite R'.
    replace (i + 1 - off) with (i - off + 1) by lia. rewrite updw_succ by lia.
    replace (off + (i - off) + 1) with (i + 1) by lia. destruct (q =? start col (i + 1) - 1); auto.
  - intros kpr [L R]. replace (off + m - off) with m in R by lia. split; [|exact R]. destruct HK. split; auto; cbn.
    + split.
      * intros j Hj. rewrite ovl_start. apply kr_csc. auto.
      * intros j t r v Hj Ht. rewrite ovl_start. apply ovl_l_nth in Ht. destruct Ht as [v0 [E _]].
        eapply (csc_ir _ _ _ _ _ kr_csc); eauto.
      * intros j t r v Hj Ht. rewrite ovl_start. apply ovl_l_nth in Ht. destruct Ht as [v0 [E ->]].
        rewrite R. destruct (updw col off m d (start col j + Z.of_nat t)); auto.
        eapply (csc_pr _ _ _ _ _ kr_csc); eauto.
    + apply ovl_rows. auto.
    + rewrite ovl_start. auto.
Qed.

(** The scaling entries -s_i/z_i. *)
Definition scalF (s z : Z -> F) (i : Z) : F := dv A (fopp A (s i)) (z i).

Lemma updatekktmatrix_ok K N cap col s z ds dz ap ad m n p fs fz :
  KktRep K N cap col -> 0 <= n -> 0 <= p -> 0 <= m -> N = n + p + m ->
  (0 < m -> 1 <= start col (n + p + 1)) ->
  vec s m fs -> vec z m fz -> (forall i, 0 <= i < m -> exists q, fdiv A (fopp A (fs i)) (fz i) = Ok q) ->
  wp (updatekktmatrix A K s z ds dz ap ad m n p 0)
     (fun K' => KktRep K' N cap (ovl col (updw col (n + p) m (scalF fs fz))) /\ jc K' = jc K /\ ir K' = ir K /\
        forall q, rd (pr K') q = match updw col (n + p) m (scalF fs fz) q with Some v => Ok v | None => rd (pr K) q end).
Proof.
  intros HK Hn Hp Hm HN Hpos Hs Hz Hd. unfold updatekktmatrix. cbn [Z.eqb].
  wb. eapply wp_mono.
  { replace (n + m + p) with ((n + p) + m) by lia.
    rewrite (for_ext _ _ _ (fun i kpr => e <- rd (jc K) (i + 1) ;;
       v <- (fun t => st <- rd s t ;; zt <- rd z t ;; fdiv A (fopp A st) zt) (i - (n + p)) ;; wr kpr (e - 1) v)).
    - eapply (upd_loop_ok K N cap col (n + p) m (fun t => st <- rd s t ;; zt <- rd z t ;; fdiv A (fopp A st) zt) (scalF fs fz)); auto; try lia.
      intros i Hi. cbv beta. rewrite (Hs i Hi). simpl. rewrite (Hz i Hi). simpl. apply dv_ok. auto.
    - intros j kpr Hj. replace (j - n - p) with (j - (n + p)) by lia. reflexivity. }
  intros kpr [HR HQ]. wb. wok. wb. wok. wok. auto.
Qed.

(** When no updated column is empty, position [start col (off+i+1) - 1] gets [d i] and nothing else is written. *)
Lemma updw_at col off m d : 0 <= off -> 0 <= m ->
  (forall i, 0 <= i < m -> start col (off + i) < start col (off + i + 1)) ->
  (forall i, 0 <= i < m -> updw col off m d (start col (off + i + 1) - 1) = Some (d i)) /\
  (forall pos, (forall i, 0 <= i < m -> pos <> start col (off + i + 1) - 1) -> updw col off m d pos = None).
Proof.
  intros Hoff Hm. pattern m. revert m Hm. apply zr_ind.
  - intros _. split; [intros; lia|]. reflexivity.
  - intros m Hm IH Hlt. destruct IH as [IH1 IH2]; [intros; apply Hlt; lia|]. split.
    + intros i Hi. rewrite updw_succ by lia. destruct (Z.eqb_spec (start col (off + i + 1) - 1) (start col (off + m + 1) - 1)) as [E|E].
      * destruct (Z.eq_dec i m) as [->|Hne]; auto. exfalso.
        pose proof (start_mono col (off + i + 1) (off + m) ltac:(lia)). specialize (Hlt m ltac:(lia)). lia.
      * apply IH1. destruct (Z.eq_dec i m); [subst; congruence|lia].
    + intros pos Hpos. rewrite updw_succ by lia. destruct (Z.eqb_spec pos (start col (off + m + 1) - 1)) as [E|E].
      * exfalso. apply (Hpos m); auto. lia.
      * apply IH2. intros i Hi. apply Hpos. lia.
Qed.

(** With an entry in every row of G, the update replaces exactly the scaling diagonal. *)
Lemma ovl_kkt_col n m p pcol acol gcol (d0 d : Z -> F) j :
  0 <= n -> 0 <= p -> 0 <= m -> (forall i, 0 <= i < m -> tcol gcol n i <> []) -> 0 <= j < n + p + m ->
  let col := kkt_col A n p pcol acol gcol d0 in
  ovl col (updw col (n + p) m d) j = kkt_col A n p pcol acol gcol d j.
Proof.
  intros Hn Hp Hm Hne Hj col.
  assert (Hlen : forall i, 0 <= i < m -> start col (n + p + i) + 1 <= start col (n + p + i + 1)).
  { intros i Hi. rewrite start_succ by lia. unfold col at 3, kkt_col.
    destruct (Z.ltb_spec (n + p + i) n); [lia|]. destruct (Z.ltb_spec (n + p + i) (n + p)); [lia|].
    replace (n + p + i - n - p) with i by lia. specialize (Hne i Hi).
    destruct (tcol gcol n i) as [|e c]; [congruence|]. rewrite zlen_app, zlen_cons.
    pose proof (zlen_nonneg c). pose proof (zlen_nonneg [(n + p + i, d0 i)]). lia. }
  (* the position written for row i lies in column n+p+i *)
  assert (Hw : forall k pos, 0 <= k -> k <= m ->
     match updw col (n + p) k d pos with
     | Some v => exists i, 0 <= i < k /\ pos = start col (n + p + i + 1) - 1 /\ v = d i
     | None => forall i, 0 <= i < k -> pos <> start col (n + p + i + 1) - 1
     end).
  { intros k pos Hk. pattern k. revert k Hk. apply zr_ind.
    - intros _. simpl. intros; lia.
    - intros k Hk IH Hkm. rewrite updw_succ by lia. destruct (Z.eqb_spec pos (start col (n + p + k + 1) - 1)).
      + exists k. repeat split; auto; lia.
      + specialize (IH ltac:(lia)). destruct (updw col (n + p) k d pos).
        * destruct IH as [i [Hi [E1 E2]]]. exists i. repeat split; auto; lia.
        * intros i Hi. destruct (Z.eq_dec i k); [subst; auto|]. apply IH; lia. }
  assert (Hcol : forall jj t, 0 <= jj < n + p + m -> 0 <= t < zlen (col jj) ->
     (jj < n + p \/ t < zlen (col jj) - 1) -> updw col (n + p) m d (start col jj + t) = None).
  { intros jj t Hjj Ht Hc. specialize (Hw m (start col jj + t) Hm ltac:(lia)).
    destruct (updw col (n + p) m d (start col jj + t)) as [v|] eqn:E; auto. exfalso.
    destruct Hw as [i [Hi [Ep _]]].
    pose proof (start_succ col jj ltac:(lia)) as HS.
    destruct (Z.lt_ge_cases jj (n + p + i)).
    - pose proof (start_mono col (jj + 1) (n + p + i) ltac:(lia)). pose proof (Hlen i Hi). lia.
    - destruct (Z.eq_dec jj (n + p + i)); [subst jj; lia|].
      pose proof (start_mono col (n + p + i + 1) jj ltac:(lia)). lia. }
  unfold ovl.
  destruct (Z.ltb_spec j n).
  { rewrite ovl_l_none by (intros t Ht; apply Hcol; auto; lia).
    unfold col, kkt_col. destruct (Z.ltb_spec j n); [auto|lia]. }
  destruct (Z.ltb_spec j (n + p)).
  { rewrite ovl_l_none by (intros t Ht; apply Hcol; auto; lia).
    unfold col, kkt_col. destruct (Z.ltb_spec j n); [lia|]. destruct (Z.ltb_spec j (n + p)); [auto|lia]. }
  set (i := j - n - p). assert (Hi : 0 <= i < m) by (unfold i; lia).
  assert (Ecol : col j = tcol gcol n i ++ [(j, d0 i)]).
  { unfold col, kkt_col. destruct (Z.ltb_spec j n); [lia|]. destruct (Z.ltb_spec j (n + p)); [lia|]. fold i.
    destruct (tcol gcol n i) eqn:E; auto. exfalso. eapply Hne; eauto. }
  specialize (Hne i Hi).
  assert (Elen : zlen (col j) = zlen (tcol gcol n i) + 1) by (rewrite Ecol, zlen_app, zlen_cons, zlen_nil; lia).
  rewrite Ecol. unfold kkt_col at 1. destruct (Z.ltb_spec j n); [lia|]. destruct (Z.ltb_spec j (n + p)); [lia|]. fold i.
  assert (G : forall l, l = tcol gcol n i ->
     ovl_l (start col j) (updw col (n + p) m d) (l ++ [(j, d0 i)]) = l ++ [(j, d i)]).
  { intros l El. rewrite ovl_l_app, ovl_l_none.
    - cbn [ovl_l]. f_equal. f_equal. f_equal.
      specialize (Hw m (start col j + zlen l) Hm ltac:(lia)).
      destruct (updw col (n + p) m d (start col j + zlen l)) as [v|].
      + destruct Hw as [i' [Hi' [Ep ->]]]. f_equal.
        pose proof (start_succ col j ltac:(lia)) as HS. subst l.
        destruct (Z.lt_trichotomy i' i) as [HT|[HT|HT]]; auto; exfalso.
        * pose proof (start_mono col (n + p + i' + 1) j ltac:(lia)). pose proof (zlen_nonneg (tcol gcol n i)). lia.
        * pose proof (start_mono col (j + 1) (n + p + i') ltac:(lia)). pose proof (Hlen i' Hi'). lia.
      + exfalso. apply (Hw i Hi). subst l. replace (n + p + i + 1) with (j + 1) by lia.
        rewrite start_succ by lia. lia.
    - intros t Ht. apply Hcol; auto; subst l; lia. }
  destruct (tcol gcol n i) as [|e c] eqn:E; [congruence|]. apply (G (e :: c)). auto.
Qed.

(** ** Right-hand sides and other vector loops *)

(** A loop filling cells [off..off+k-1] of a longer block. *)
Lemma fill_part {T} (g : Z -> T) (f : Z -> T) off k N (body : Z -> arr T -> res (arr T)) (a : arr T) :
  0 <= off -> 0 <= k -> off + k <= N -> zlen a = N -> vec a off f ->
  (forall i a', off <= i < off + k -> body i a' = wr a' i (g (i - off))) ->
  wp (for_ off (off + k) body a) (fun a' => zlen a' = N /\
      vec a' (off + k) (fun i => if i <? off then f i else g (i - off))).
Proof.
  intros Ho Hk HN L Hf Hb. apply (wp_fill (fun i => g (i - off)) 0 off (off + k)); try lia.
  - intros i a' Hi L' R1 R2. rewrite Hb by auto. rewrite Z.add_0_r. apply wp_wr_eq. lia.
  - intros a' L' R1 R2. split; [lia|]. intros i Hi. destruct (Z.ltb_spec i off).
    + rewrite R2 by lia. apply Hf; lia.
    + rewrite R1 by lia. f_equal. f_equal. lia.
Qed.

(** Three stacked blocks. *)
Definition stack3 (n p : Z) (f g h : Z -> F) (i : Z) : F :=
  if i <? n then f i else if i <? n + p then g (i - n) else h (i - n - p).

(** The third block of the right-hand side: rz_i - ds_i/z_i. *)
Definition rhs3 (rz ds z : Z -> F) (i : Z) : F := fsub A (rz i) (dv A (ds i) (z i)).

Lemma updatekktmatrix_b_ok b rx ry rz ds z n m p frx fry frz fds fz :
  0 <= n -> 0 <= p -> 0 <= m -> zlen b = n + p + m ->
  vec rx n frx -> vec ry p fry -> vec rz m frz -> vec ds m fds -> vec z m fz ->
  (forall i, 0 <= i < m -> exists q, fdiv A (fds i) (fz i) = Ok q) ->
  wp (updatekktmatrix_b A b rx ry rz ds z n m p)
     (fun b' => is_vec b' (n + p + m) (stack3 n p frx fry (rhs3 frz fds fz))).
Proof.
  intros Hn Hp Hm L Hrx Hry Hrz Hds Hz Hd. unfold updatekktmatrix_b.
  wb. eapply wp_mono.
  { replace n with (0 + n) at 1 by lia.
    apply (fill_part frx frx 0 n (n + p + m)); auto; try lia.
    - intros i Hi; lia.
    - intros i a' Hi. rewrite Hrx by lia. simpl. f_equal. f_equal. lia. }
  intros b1 [L1 H1]. wb. eapply wp_mono.
  { eapply (fill_part fry _ n p (n + p + m)); [lia|lia|lia|exact L1|exact H1|].
    intros i a' Hi. rewrite Hry by lia. reflexivity. }
  intros b2 [L2 H2]. eapply wp_mono.
  { replace (n + m + p) with ((n + p) + m) by lia.
    eapply (fill_part (rhs3 frz fds fz) _ (n + p) m (n + p + m)); [lia|lia|lia|exact L2|exact H2|].
    intros i a' Hi. replace (i - n - p) with (i - (n + p)) by lia.
    rewrite Hrz by lia. simpl. rewrite Hds by lia. simpl. rewrite Hz by lia. simpl.
    unfold rhs3. rewrite (dv_ok A) by (apply Hd; lia). reflexivity. }
  intros b3 [L3 H3]. split; auto. intros i Hi. rewrite H3 by lia. f_equal. unfold stack3.
  repeat match goal with |- context[?a <? ?b] => destruct (Z.ltb_spec a b) end; try lia; f_equal; lia.
Qed.

(** form_ds, by selector. *)
Definition dsF_newton (l : Z -> F) (i : Z) : F := fmul A (fopp A (l i)) (l i).
Definition dsF_corr (l ds dz : Z -> F) (sg mu : F) (i : Z) : F :=
  fadd A (fsub A (fopp A (fmul A (l i) (l i))) (fmul A (ds i) (dz i))) (fmul A sg mu).
Definition dsF_center (l : Z -> F) (sg mu : F) (i : Z) : F :=
  fadd A (fopp A (fmul A (l i) (l i))) (fmul A sg mu).

Lemma form_ds_newton_ok ds lambda d_s d_z sg mu m fl :
  0 <= m -> zlen ds = m -> vec lambda m fl ->
  wp (form_ds A ds lambda d_s d_z sg mu m QP_PURE_NEWTON_STEP) (fun d => is_vec d m (dsF_newton fl)).
Proof.
  intros Hm L Hl. unfold form_ds, QP_PURE_NEWTON_STEP, QP_CENTERING_CORRECTOR_STEP, QP_CENTERING_STEP.
  cbn [Z.eqb]. wb. eapply wp_mono.
  { apply (fill_ok (dsF_newton fl)); auto. intros i a' Hi. rewrite (Hl i Hi). reflexivity. }
  intros d H. wb. wok. wok. exact H.
Qed.

Lemma form_ds_corr_ok ds lambda d_s d_z sg mu m fl fds fdz :
  0 <= m -> zlen ds = m -> vec lambda m fl -> vec d_s m fds -> vec d_z m fdz ->
  wp (form_ds A ds lambda d_s d_z sg mu m QP_CENTERING_CORRECTOR_STEP)
     (fun d => is_vec d m (dsF_corr fl fds fdz sg mu)).
Proof.
  intros Hm L Hl H1 H2. unfold form_ds, QP_PURE_NEWTON_STEP, QP_CENTERING_CORRECTOR_STEP, QP_CENTERING_STEP.
  cbn [Z.eqb Pos.eqb]. wb. wok. wb. eapply wp_mono.
  { apply (fill_ok (dsF_corr fl fds fdz sg mu)); auto. intros i a' Hi.
    rewrite (Hl i Hi). simpl. rewrite (H1 i Hi). simpl. rewrite (H2 i Hi). reflexivity. }
  intros d H. wok. exact H.
Qed.

Lemma form_ds_center_ok ds lambda d_s d_z sg mu m fl :
  0 <= m -> zlen ds = m -> vec lambda m fl ->
  wp (form_ds A ds lambda d_s d_z sg mu m QP_CENTERING_STEP) (fun d => is_vec d m (dsF_center fl sg mu)).
Proof.
  intros Hm L Hl. unfold form_ds, QP_PURE_NEWTON_STEP, QP_CENTERING_CORRECTOR_STEP, QP_CENTERING_STEP.
  cbn [Z.eqb Pos.eqb]. wb. wok. wb. wok. eapply wp_mono.
  { apply (fill_ok (dsF_center fl sg mu)); auto. intros i a' Hi. rewrite (Hl i Hi). reflexivity. }
  intros d H. exact H.
Qed.

(** ** Step lengths *)

Definition ratioF (v d : F) (st : F * bool) : F * bool :=
  if flt A d zero then
    if flt A (dv A (fopp A v) d) (fst st) then (fopp A (dv A v d), true) else st
  else st.

Definition stepS (v d : Z -> F) (m : Z) : F * bool :=
  fold_left (fun st i => ratioF (v i) (d i) st) (zr 0 m) (fofZ A 10000000000, false).

Definition stepF (v d : Z -> F) (m : Z) : F := if snd (stepS v d m) then fst (stepS v d m) else one.

(** Division by a negative number is defined. *)
Definition neg_div : Prop := forall x d, flt A d zero = true -> exists q, fdiv A x d = Ok q.

Lemma ratio_step_ok v d st : neg_div -> ratio_step A v d st = Ok (ratioF v d st).
Proof.
  intros H. unfold ratio_step, ratioF. destruct (flt A d zero) eqn:E; auto.
  rewrite (dv_ok A) by auto. simpl. destruct (flt A _ (fst st)); auto. rewrite (dv_ok A) by auto. reflexivity.
Qed.

Lemma findsteplength_ok s ds z dz m fs fds fz fdz :
  neg_div -> vec s m fs -> vec ds m fds -> vec z m fz -> vec dz m fdz ->
  findsteplength A s ds z dz m = Ok (stepF fs fds m, stepF fz fdz m).
Proof.
  intros Hd H1 H2 H3 H4. unfold findsteplength.
  rewrite (for_fold (fun st i => (ratioF (fs i) (fds i) (fst st), ratioF (fz i) (fdz i) (snd st)))).
  - simpl. unfold stepF, stepS. set (init := (fofZ A 10000000000, false)).
    assert (G : forall l a b, fold_left (fun st i => (ratioF (fs i) (fds i) (fst st), ratioF (fz i) (fdz i) (snd st))) l (a, b)
        = (fold_left (fun st i => ratioF (fs i) (fds i) st) l a, fold_left (fun st i => ratioF (fz i) (fdz i) st) l b)).
    { induction l as [|x l IH]; intros a b; simpl; auto. }
    rewrite G. reflexivity.
  - intros i [sp sd] Hi. rewrite (H2 i Hi). simpl. rewrite (H1 i Hi). simpl. rewrite ratio_step_ok by auto. simpl.
    rewrite (H4 i Hi). simpl. rewrite (H3 i Hi). simpl. rewrite ratio_step_ok by auto. reflexivity.
Qed.

(** formrho *)
Definition rhosumF (s ds z dz : Z -> F) (ap ad : F) (m : Z) : F :=
  fold_left (fun acc i => fadd A acc (fmul A (fadd A (s i) (fmul A ap (ds i))) (fadd A (z i) (fmul A ad (dz i)))))
    (zr 0 m) zero.
Definition rhoF (s ds z dz : Z -> F) (ap ad : F) (m : Z) : F := dv A (rhosumF s ds z dz ap ad m) (dotF A s z m).

Lemma formrho_ok s ds z dz ap ad m fs fds fz fdz :
  vec s m fs -> vec ds m fds -> vec z m fz -> vec dz m fdz ->
  (forall x, exists q, fdiv A x (dotF A fs fz m) = Ok q) ->
  formrho A s ds z dz ap ad m = Ok (rhoF fs fds fz fdz ap ad m).
Proof.
  intros H1 H2 H3 H4 Hd. unfold formrho.
  rewrite (for_fold (fun acc i => fadd A acc (fmul A (fadd A (fs i) (fmul A ap (fds i)))
                                              (fadd A (fz i) (fmul A ad (fdz i)))))).
  - simpl. rewrite (innerproduct_ok A s z m fs fz) by auto. simpl. apply dv_ok. apply Hd.
  - intros i acc Hi. rewrite (H1 i Hi). simpl. rewrite (H2 i Hi). simpl. rewrite (H3 i Hi). simpl.
    rewrite (H4 i Hi). reflexivity.
Qed.

(** findminmax *)
Definition minmaxF (z : Z -> F) (m : Z) : F * F :=
  fold_left (fun st i => (if flt A (z i) (fst st) then z i else fst st,
                          if flt A (snd st) (z i) then z i else snd st)) (zr 1 m) (z 0, z 0).

Lemma findminmax_ok z m fz : 1 <= m -> vec z m fz -> findminmax A z m = Ok (minmaxF fz m).
Proof.
  intros Hm H. unfold findminmax. rewrite (H 0) by lia. simpl. apply for_fold.
  intros i [mn mx] Hi. rewrite (H i) by lia. reflexivity.
Qed.

(** obj_value *)
Definition objF (pcol : cols F) (c x : Z -> F) (n : Z) : F :=
  fadd A (fmul A (fopp A (fdec A 1 2)) (dotF A (fun i => multF A pcol n x i zero) x n)) (dotF A c x n).

Lemma obj_value_ok P c x temp n pcol fc fx :
  Repr P n n pcol -> vec c n fc -> vec x n fx -> zlen temp = n ->
  wp (obj_value A P c x temp) (fun r => fst r = objF pcol fc fx n /\ zlen (snd r) = n).
Proof.
  intros RP Hc Hx L. unfold obj_value. wb.
  eapply wp_mono; [eapply (Multiply_ok A P n n pcol x temp fx (fun _ => zero) true); auto; discriminate|].
  intros t [Lt Ht]. rewrite (rp_sn _ _ _ _ RP).
  rewrite (innerproduct_ok A t x n _ fx) by (auto; exact Ht).
  wb. wok. rewrite (innerproduct_ok A c x n fc fx) by auto. wb. wok. wok. split; [reflexivity|exact Lt].
Qed.

(** recover_ds *)
Definition recF (ds s dz z : Z -> F) (i : Z) : F := dv A (fsub A (ds i) (fmul A (s i) (dz i))) (z i).

Lemma recover_ds_ok d_s ds s dz z m fds fs fdz fz :
  0 <= m -> zlen d_s = m -> vec ds m fds -> vec s m fs -> vec dz m fdz -> vec z m fz ->
  (forall i x, 0 <= i < m -> exists q, fdiv A x (fz i) = Ok q) ->
  wp (recover_ds A d_s ds s dz z m) (fun d => is_vec d m (recF fds fs fdz fz)).
Proof.
  intros Hm L H1 H2 H3 H4 Hd. unfold recover_ds. apply fill_ok; auto.
  intros i a' Hi. rewrite (H1 i Hi). simpl. rewrite (H2 i Hi). simpl. rewrite (H3 i Hi). simpl.
  rewrite (H4 i Hi). simpl. rewrite (dv_ok A) by auto. reflexivity.
Qed.

(** copy_block *)
Lemma copy_block_ok dst src lo k N f :
  0 <= lo -> 0 <= k -> lo + k <= N -> zlen dst = k -> vec src N f ->
  wp (copy_block A dst src lo (lo + k)) (fun d => is_vec d k (fun i => f (lo + i))).
Proof.
  intros Hlo Hk HN L H. unfold copy_block.
  apply (wp_fill f (- lo) lo (lo + k)); try lia.
  - intros i a' Hi L' R1 R2. wb. eapply wp_rd; [apply H; lia|].
    replace (i - lo) with (i + - lo) by lia. apply wp_wr_eq. lia.
  - intros a' L' R1 R2. split; [lia|]. intros i Hi. rewrite R1 by lia. f_equal. f_equal. lia.
Qed.

End WithArith.
