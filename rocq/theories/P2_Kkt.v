(** Properties C04 and C05: assembly and per-iteration update of the KKT matrix. *)
From Coq Require Import ZArith Reals List Lia Lra Bool.
From RecordUpdate Require Import RecordUpdate.
From Verif Require Import Res Arith Lists MSparse Csc SemVec Flat TransposeProofs KktProofs MLdl LdlSym LdlNum LdlR LdlFun
  MSolver VecOps Iter SafeInst Setup Session Spec SpecLink QpSpec NewtonR Api Demo.
Import ListNotations.
Open Scope Z_scope.
Open Scope res_scope.

(** ** Specification *)

(** [P A' G'; A 0 0; G 0 -I], entry by entry. *)
Definition kkt_entry (Q : QPdata) (a c : Z) : R :=
  let n := dn Q in let p := dp Q in
  if c <? n then
    (if a <? n then dP Q a c else if a <? n + p then dA Q (a - n) c else dG Q (a - n - p) c)
  else if c <? n + p then (if a <? n then dA Q (c - n) a else 0%R)
  else (if a <? n then dG Q (c - n - p) a else if a =? c then (-1)%R else 0%R).

(** The stored entries, block by block; [Pe], [Ae], [Ge]: what the three matrices store. *)
Definition kkt_stored {F} (n p : Z) (Pe Ae Ge : Z -> Z -> F -> Prop) (mone : F) (a c : Z) (v : F) : Prop :=
  (c < n /\ a < n /\ Pe a c v) \/
  (c < n /\ n <= a < n + p /\ Ae (a - n) c v) \/
  (c < n /\ n + p <= a /\ Ge (a - n - p) c v) \/
  (n <= c < n + p /\ a < n /\ Ae (c - n) a v) \/
  (n + p <= c /\ a < n /\ Ge (c - n - p) a v) \/
  (n + p <= c /\ a = c /\ v = mone).

Definition u_Astored {F} (u : user F) (i j : Z) (v : F) : Prop :=
  exists ajc air apr bb, u_eqs u = Some (ajc, air, apr, bb) /\ stored ajc air apr i j v.

(** ** Proof *)

Lemma start_kkt_exact A n m p (pcol acol gcol : cols (car A)) d :
  0 <= n -> 0 <= m -> 0 <= p -> rows_in p n acol -> rows_in m n gcol ->
  (forall i, 0 <= i < m -> tcol gcol n i <> []) ->
  start (kkt_col A n p pcol acol gcol d) (n + p + m) = start pcol n + 2 * start gcol n + m + 2 * start acol n.
Proof.
  intros Hn Hm Hp Ha Hg Hrow. unfold start at 1.
  rewrite (zr_app 0 n (n + p + m)), (zr_app n (n + p) (n + p + m)), !sumz_app by lia.
  fold (start (kkt_col A n p pcol acol gcol d) n). rewrite start_kkt_low by lia.
  assert (E1 : sumz (fun j' => zlen (kkt_col A n p pcol acol gcol d j')) (zr n (n + p)) = start acol n).
  { rewrite <- (start_tcol acol p n Ha Hn). unfold start.
    replace (zr n (n + p)) with (zr (0 + n) (p + n)) by (f_equal; lia). rewrite sumz_shift. apply sumz_ext.
    intros x Hx. apply in_zr in Hx. unfold kkt_col.
    destruct (Z.ltb_spec (x + n) n); [lia|]. destruct (Z.ltb_spec (x + n) (n + p)); [|lia].
    do 2 f_equal. lia. }
  assert (E2 : sumz (fun j' => zlen (kkt_col A n p pcol acol gcol d j')) (zr (n + p) (n + p + m)) = start gcol n + m).
  { rewrite <- (start_tcol gcol m n Hg Hn). unfold start.
    replace (zr (n + p) (n + p + m)) with (zr (0 + (n + p)) (m + (n + p))) by (f_equal; lia). rewrite sumz_shift.
    assert (G : forall l, (forall x, In x l -> 0 <= x < m) ->
      sumz (fun x => zlen (kkt_col A n p pcol acol gcol d (x + (n + p)))) l =
      sumz (fun j' => zlen (tcol gcol n j')) l + zlen l).
    { induction l as [|x l IH]; intros Hl; simpl; [unfold zlen; cbn [length]; lia|].
      rewrite zlen_cons. rewrite IH by (intros; apply Hl; simpl; auto).
      assert (Hx : 0 <= x < m) by (apply Hl; simpl; auto). specialize (Hrow x Hx).
      unfold kkt_col at 1. destruct (Z.ltb_spec (x + (n + p)) n); [lia|].
      destruct (Z.ltb_spec (x + (n + p)) (n + p)); [lia|].
      replace (x + (n + p) - n - p) with x by lia. destruct (tcol gcol n x) as [|e c]; [congruence|].
      rewrite zlen_app, !zlen_cons, zlen_nil. lia. }
    rewrite G; [|intros x Hx; apply in_zr in Hx; lia]. rewrite zlen_zr. lia. }
  lia.
Qed.

Section C04.
Variable A : Arith.
Notation F := (car A).
Variables (amd : amd_t) (u : user F) (q : qp F).
Hypothesis Hdiv : div_ok A.
Hypothesis HV : valid_user amd u.
Hypothesis HS : setup A amd u = Ok q.

Notation n := (u_n u).
Notation m := (u_m u).
Notation p := (u_pe u).
Notation K := (k_mat (q_kkt q)).

Lemma setup_started : exists B r, Started A u B q r.
Proof. pose proof (setup_ok A amd u Hdiv HV) as H. rewrite HS in H. exact H. Qed.

Lemma valid_pe : 0 <= p.
Proof.
  unfold u_pe. destruct (u_eqs u) as [[[[ajc air] apr] bb]|] eqn:E; [|lia].
  apply (vu_A _ _ HV _ _ _ _ E).
Qed.

Lemma acol_in i j v : 0 <= j < n -> In (i, v) (u_acol A u j) <-> u_Astored u i j v.
Proof.
  intros Hj. unfold u_acol, u_Astored. destruct (u_eqs u) as [[[[ajc air] apr] bb]|] eqn:E.
  - destruct (vu_A _ _ HV _ _ _ _ E) as [_ [[nz H] _]].
    destruct (csc_link (f0 A) _ _ _ _ _ _ (vu_n _ _ HV) H) as [C _].
    rewrite <- (Csc_stored _ _ _ _ _ i j v C Hj). split.
    + intros Hs. exists ajc, air, apr, bb. auto.
    + intros [a1 [a2 [a3 [a4 [E2 Hs]]]]]. inversion E2; subst. auto.
  - split; [intros []|]. intros [a1 [a2 [a3 [a4 [E2 _]]]]]. discriminate.
Qed.

Lemma acol_rows : rows_in p n (u_acol A u).
Proof.
  unfold u_acol, u_pe. destruct (u_eqs u) as [[[[ajc air] apr] bb]|] eqn:E; [|intros ? ? ? _ []].
  destruct (vu_A _ _ HV _ _ _ _ E) as [_ [[nz H] _]]. apply (csc_link (f0 A) _ _ _ _ _ _ (vu_n _ _ HV) H).
Qed.

Lemma gcol_rows : rows_in m n (column (f0 A) (u_Gjc u) (u_Gir u) (u_Gpr u)).
Proof. destruct (vu_G _ _ HV) as [nz H]. apply (csc_link (f0 A) _ _ _ _ _ _ (vu_n _ _ HV) H). Qed.

Lemma pcol_rows : rows_in n n (column (f0 A) (u_Pjc u) (u_Pir u) (u_Ppr u)).
Proof. destruct (vu_P _ _ HV) as [nz H]. apply (csc_link (f0 A) _ _ _ _ _ _ (vu_n _ _ HV) H). Qed.

Lemma gcol_in i j v : 0 <= j < n ->
  In (i, v) (column (f0 A) (u_Gjc u) (u_Gir u) (u_Gpr u) j) <-> stored (u_Gjc u) (u_Gir u) (u_Gpr u) i j v.
Proof.
  intros Hj. destruct (vu_G _ _ HV) as [nz H]. destruct (csc_link (f0 A) _ _ _ _ _ _ (vu_n _ _ HV) H) as [C _].
  symmetry. apply (Csc_stored _ _ _ _ _ i j v C Hj).
Qed.

Lemma pcol_in i j v : 0 <= j < n ->
  In (i, v) (column (f0 A) (u_Pjc u) (u_Pir u) (u_Ppr u) j) <-> stored (u_Pjc u) (u_Pir u) (u_Ppr u) i j v.
Proof.
  intros Hj. destruct (vu_P _ _ HV) as [nz H]. destruct (csc_link (f0 A) _ _ _ _ _ _ (vu_n _ _ HV) H) as [C _].
  symmetry. apply (Csc_stored _ _ _ _ _ i j v C Hj).
Qed.

Notation KC := (kkt_col A n p (column (f0 A) (u_Pjc u) (u_Pir u) (u_Ppr u)) (u_acol A u)
                  (column (f0 A) (u_Gjc u) (u_Gir u) (u_Gpr u)) (minus_one A)).

Lemma K_rep : exists cap, KktRep K (u_N u) cap KC /\ (covered u -> start KC (u_N u) = cap).
Proof.
  destruct setup_started as [B [r H]]. pose proof (sd_K _ _ _ _ _ H) as HK.
  pose proof (started_rows A amd u B q r HV H) as HR.
  destruct (sd_B _ _ _ _ _ H) as [Pf [Qf [par ->]]]. eexists. split; [exact HK|].
  intros Hc. specialize (HR Hc). cbn [prob_of pn pm pp pP pA pG] in *. apply start_kkt_exact.
  - apply (vu_n _ _ HV).
  - pose proof (vu_m _ _ HV). lia.
  - apply valid_pe.
  - apply acol_rows.
  - apply gcol_rows.
  - exact HR.
Qed.

(** After setup: a well-formed matrix that exactly fills its arrays and stores exactly the blocks. *)
Theorem C04_kkt_assembly : covered u ->
  sn K = u_N u /\ sm K = u_N u /\
  csc_arrays (u_N u) (u_N u) (jc K) (ir K) (pr K) (nnz K) /\
  zlen (jc K) = u_N u + 1 /\ zlen (ir K) = nnz K /\ zlen (pr K) = nnz K /\
  (forall a c v, 0 <= a < u_N u -> 0 <= c < u_N u ->
     stored (jc K) (ir K) (pr K) a c v <->
     kkt_stored n p (stored (u_Pjc u) (u_Pir u) (u_Ppr u)) (u_Astored u) (stored (u_Gjc u) (u_Gir u) (u_Gpr u))
       (fopp A (f1 A)) a c v).
Proof.
  intros Hc. destruct K_rep as [cap [HK Hcap]]. specialize (Hcap Hc).
  pose proof (kr_csc _ _ _ _ HK) as C. pose proof (kr_N _ _ _ _ HK) as HN.
  assert (En : nnz K = start KC (u_N u)) by (rewrite (kr_nnz _ _ _ _ HK); auto).
  split; [apply HK|]. split; [apply HK|]. split; [rewrite En; apply Csc_arrays; auto; apply HK|].
  split; [apply HK|]. split; [rewrite (kr_nnz _ _ _ _ HK); apply HK|]. split; [rewrite (kr_nnz _ _ _ _ HK); apply HK|].
  intros a c v Ha Hc'. rewrite (Csc_stored _ _ _ _ _ a c v C Hc'). unfold kkt_stored, u_N in *.
  pose proof (vu_n _ _ HV) as Hn0. pose proof valid_pe as Hp0.
  unfold kkt_col. destruct (Z.ltb_spec c n).
  - rewrite !in_app_iff, !in_shift, pcol_in, acol_in, gcol_in by lia. replace (a - (n + p)) with (a - n - p) by lia.
    split.
    + intros [H1|[H1|H1]].
      * left. split; auto. split; auto. apply pcol_in in H1; [|lia]. apply (pcol_rows c a v ltac:(lia) H1).
      * right; left. split; auto. split; auto. apply acol_in in H1; [|lia]. pose proof (acol_rows c _ v ltac:(lia) H1). lia.
      * right; right; left. split; auto. split; auto. apply gcol_in in H1; [|lia]. pose proof (gcol_rows c _ v ltac:(lia) H1). lia.
    + intros [H1|[H1|[H1|[H1|[H1|H1]]]]]; try tauto; lia.
  - destruct (Z.ltb_spec c (n + p)).
    + rewrite in_tcol. split.
      * intros [H1 H2]. do 3 right. left. split; [lia|]. split; [lia|]. apply acol_in; auto.
      * intros [H1|[H1|[H1|[H1|[H1|H1]]]]]; try lia. destruct H1 as [_ [H1 H2]]. split; [lia|]. apply acol_in; auto. lia.
    + assert (Hi : 0 <= c - n - p < m) by lia. destruct (Hc _ Hi) as [j [w [Hj Hs]]].
      assert (Hne : tcol (column (f0 A) (u_Gjc u) (u_Gir u) (u_Gpr u)) n (c - n - p) <> []).
      { intros E. apply (gcol_in _ _ _ Hj) in Hs.
        assert (Hin : In (j, w) (tcol (column (f0 A) (u_Gjc u) (u_Gir u) (u_Gpr u)) n (c - n - p))) by (apply in_tcol; auto).
        rewrite E in Hin. contradiction. }
      destruct (tcol (column (f0 A) (u_Gjc u) (u_Gir u) (u_Gpr u)) n (c - n - p)) as [|e l] eqn:E; [congruence|]. rewrite <- E.
      rewrite in_app_iff, in_tcol. cbn [In]. split.
      * intros [[H1 H2]|[H1|[]]].
        -- do 4 right. left. split; [lia|]. split; [lia|]. apply gcol_in; auto.
        -- inversion H1; subst. do 5 right. auto.
      * intros [H1|[H1|[H1|[H1|[H1|H1]]]]]; try lia.
        -- left. destruct H1 as [_ [H1 H2]]. split; [lia|]. apply gcol_in; auto. lia.
        -- right. left. destruct H1 as [_ [-> ->]]. reflexivity.
Qed.

(** An inequality without a stored coefficient: its -1 is missing, whatever the rest of the data. *)
Theorem C04_missing_diagonal i : 0 <= i < m ->
  (forall j v, 0 <= j < n -> ~ stored (u_Gjc u) (u_Gir u) (u_Gpr u) i j v) ->
  forall a v, ~ stored (jc K) (ir K) (pr K) a (n + p + i) v.
Proof.
  intros Hi Hno a v Hst. destruct K_rep as [cap [HK _]]. pose proof (kr_csc _ _ _ _ HK) as C.
  pose proof (vu_n _ _ HV) as Hn0. pose proof valid_pe as Hp0.
  apply (Csc_stored _ _ _ _ _ a (n + p + i) v C) in Hst; [|unfold u_N; lia].
  unfold kkt_col in Hst. destruct (Z.ltb_spec (n + p + i) n); [lia|]. destruct (Z.ltb_spec (n + p + i) (n + p)); [lia|].
  replace (n + p + i - n - p) with i in Hst by lia.
  assert (E : tcol (column (f0 A) (u_Gjc u) (u_Gir u) (u_Gpr u)) n i = []).
  { destruct (tcol (column (f0 A) (u_Gjc u) (u_Gir u) (u_Gpr u)) n i) as [|[j w] l] eqn:E; auto. exfalso.
    assert (Hin : In (j, w) (tcol (column (f0 A) (u_Gjc u) (u_Gir u) (u_Gpr u)) n i)) by (rewrite E; left; auto).
    apply in_tcol in Hin. destruct Hin as [Hj Hin]. apply (Hno j w Hj). apply gcol_in; auto. }
  rewrite E in Hst. contradiction.
Qed.
End C04.

(** In exact arithmetic the entries are those of the KKT matrix. *)
Theorem C04_kkt_entries amd u q : valid_user amd u -> covered u -> setup RA amd u = Ok q ->
  forall a c, 0 <= a < u_N u -> 0 <= c < u_N u ->
  mat_entry (jc (k_mat (q_kkt q))) (ir (k_mat (q_kkt q))) (pr (k_mat (q_kkt q))) a c = kkt_entry (user_qp u) a c.
Proof.
  intros HV Hc HS a c Ha Hc'.
  destruct (setup_started RA amd u q div_ok_R HV HS) as [B [r H]].
  pose proof (started_rows RA amd u B q r HV H Hc) as HR. pose proof (started_dims amd u B q r HV H) as HD.
  pose proof (started_qp u B q r H) as EQ. pose proof (sd_n _ _ _ _ _ H) as [E1 [E2 [E3 _]]].
  pose proof (kr_csc _ _ _ _ (sd_K _ _ _ _ _ H)) as C.
  assert (EN : pN B = u_N u) by (unfold pN, u_N; cbn [car RA] in *; lia).
  pose proof (Csc_column 0%R _ _ _ _ _ c C ltac:(lia)) as EC. unfold mat_entry. cbn [car RA] in *. rewrite EC.
  change (ent (K0 RA B c) a = kkt_entry (user_qp u) a c). rewrite <- EQ.
  destruct HD as [D1 D2 D3 D4 D5 D6 DK]. cbn [car RA] in *.
  unfold kkt_entry, qp_of. cbn [dn dm dp dP dA dG car RA].
  pose proof (kkt_ent_x (pn B) (pm B) (pp B) (pP B) (pA B) (pG B) (minus_one RA) D3 D4 D6 D5) as KX.
  pose proof (kkt_ent_y (pn B) (pm B) (pp B) (pP B) (pA B) (pG B) (minus_one RA)) as KY.
  pose proof (kkt_ent_z (pn B) (pm B) (pp B) (pP B) (pA B) (pG B) (minus_one RA) D3 HR) as KZ.
  unfold K0. cbn [car RA] in *. rewrite DK. destruct (Z.ltb_spec c (pn B)).
  - apply KX; unfold pN in *; lia.
  - destruct (Z.ltb_spec c (pn B + pp B)).
    + replace c with (pn B + (c - pn B)) at 1 by lia. apply KY; unfold pN in *; try lia.
    + replace c with (pn B + pp B + (c - pn B - pp B)) at 1 by lia. rewrite KZ; unfold pN in *; auto; try lia.
      replace (pn B + pp B + (c - pn B - pp B)) with c by lia. reflexivity.
Qed.

(** ** C05 *)

Lemma Csc_last {F} Jc Ir (Pr : arr F) n (col : cols F) j l r v : Csc Jc Ir Pr n col -> 0 <= j < n ->
  col j = l ++ [(r, v)] ->
  rd Jc (j + 1) = Ok (start col (j + 1) - 1 + 1) /\ rd Ir (start col (j + 1) - 1) = Ok r /\ rd Pr (start col (j + 1) - 1) = Ok v.
Proof.
  intros C Hj E.
  assert (Hn : nth_error (col j) (length l) = Some (r, v)) by (rewrite E, nth_error_app2, Nat.sub_diag by lia; reflexivity).
  assert (Hs : start col (j + 1) - 1 = start col j + Z.of_nat (length l)).
  { rewrite start_succ by lia. rewrite E, zlen_app, zlen_cons, zlen_nil. unfold zlen. lia. }
  split; [rewrite (csc_jc _ _ _ _ _ C) by lia; f_equal; lia|]. rewrite Hs. split.
  - eapply csc_ir; eauto.
  - eapply csc_pr; eauto.
Qed.

Lemma kkt_col_last A n p (pcol acol gcol : cols (car A)) d i : 0 <= p -> 0 <= i -> tcol gcol n i <> [] ->
  kkt_col A n p pcol acol gcol d (n + p + i) = tcol gcol n i ++ [(n + p + i, d i)].
Proof.
  intros Hp Hi Hne. unfold kkt_col. destruct (Z.ltb_spec (n + p + i) n); [lia|].
  destruct (Z.ltb_spec (n + p + i) (n + p)); [lia|]. replace (n + p + i - n - p) with i by lia.
  destruct (tcol gcol n i) as [|e c]; [congruence|]. reflexivity.
Qed.

Lemma ovl_last {F} (col : cols F) w j l r v : col j = l ++ [(r, v)] ->
  exists l' v', ovl col w j = l' ++ [(r, v')].
Proof.
  intros E. unfold ovl. rewrite E, ovl_l_app. cbn [ovl_l]. eauto.
Qed.

(** At any moment of a session on a covered problem the update statement of the loop writes
    -s_i/z_i to the last entry of column n+p+i, which is its diagonal entry, and nothing else. *)
Theorem C05_kkt_update A ps amd (u : user (car A)) l codes q : Safe A ps -> valid_user amd u -> covered u ->
  quiet_calls A u l -> session A amd u l = Ok (codes, q) ->
  let K := k_mat (q_kkt q) in
  exists K', do_update_kkt A q = Ok (q <| q_kkt := (q_kkt q) <| k_mat := K' |> |>) /\
    jc K' = jc K /\ ir K' = ir K /\ nnz K' = nnz K /\ sn K' = sn K /\ sm K' = sm K /\
    (forall i, 0 <= i < u_m u -> exists k si zi v,
       rd (jc K) (u_n u + u_pe u + i + 1) = Ok (k + 1) /\ rd (ir K) k = Ok (u_n u + u_pe u + i) /\
       rd (q_s q) i = Ok si /\ rd (q_z q) i = Ok zi /\ fdiv A (fopp A si) zi = Ok v /\ rd (pr K') k = Ok v) /\
    (forall k, (forall i, 0 <= i < u_m u -> rd (jc K) (u_n u + u_pe u + i + 1) <> Ok (k + 1)) ->
       rd (pr K') k = rd (pr K) k).
Proof.
  intros SF HV Hc Hq HS K. unfold K. clear K.
  destruct (session_ok A amd u l ps SF HV Hq) as [q0 [q' [B [r [E0 [HSt [E1 [HA [HI _]]]]]]]]].
  rewrite HS in E1. injection E1 as E1 E2. subst q'. clear E1.
  pose proof (started_rows A amd u B q0 r HV HSt Hc) as HR.
  pose proof (sd_n _ _ _ _ _ HSt) as [En [Em [Ep _]]].
  destruct HA as [HB HP _ _]. destruct HI as [HIs HIz]. set (pt := sn_pt A (snd (callsF A B (fresh A B r) l))) in *.
  destruct (b_K _ _ _ HB) as [cap [w [HK Hw]]].
  pose proof (b_n0 _ _ _ HB) as Hn0. pose proof (b_m1 _ _ _ HB) as Hm1. pose proof (b_p0 _ _ _ HB) as Hp0.
  assert (Hlast : forall i, 0 <= i < pm B -> exists l' v', ovl (K0 A B) w (pn B + pp B + i) = l' ++ [(pn B + pp B + i, v')]).
  { intros i Hi. eapply ovl_last. rewrite (sd_K0 _ _ _ _ _ HSt). apply kkt_col_last; auto; lia. }
  assert (Hinc : forall i, 0 <= i < pm B -> start (ovl (K0 A B) w) (pn B + pp B + i) < start (ovl (K0 A B) w) (pn B + pp B + i + 1)).
  { intros i Hi. destruct (Hlast i Hi) as [l' [v' E]]. rewrite start_succ by lia. rewrite E, zlen_app, zlen_cons, zlen_nil.
    pose proof (zlen_nonneg l'). lia. }
  destruct (updw_at A (ovl (K0 A B) w) (pn B + pp B) (pm B) (scalF A (ptS A pt) (ptZ A pt)) ltac:(lia) ltac:(lia) Hinc) as [U1 U2].
  assert (Hdo : wp (do_update_kkt A q) (fun q' => exists K', q' = q <| q_kkt := (q_kkt q) <| k_mat := K' |> |> /\
     KktRep K' (pN B) cap (ovl (ovl (K0 A B) w) (updw A (ovl (K0 A B) w) (pn B + pp B) (pm B) (scalF A (ptS A pt) (ptZ A pt)))) /\
     jc K' = jc (k_mat (q_kkt q)) /\ ir K' = ir (k_mat (q_kkt q)) /\
     forall k, rd (pr K') k = match updw A (ovl (K0 A B) w) (pn B + pp B) (pm B) (scalF A (ptS A pt) (ptZ A pt)) k with
                              Some v => Ok v | None => rd (pr (k_mat (q_kkt q))) k end)).
  { unfold do_update_kkt. rewrite (b_n _ _ _ HB), (b_m _ _ _ HB), (b_p _ _ _ HB). wb. eapply wp_mono.
    { eapply (updatekktmatrix_ok A _ (pN B) cap (ovl (K0 A B) w) _ _ _ _ _ _ (pm B) (pn B) (pp B) (ptS A pt) (ptZ A pt));
        [exact HK|lia|lia|lia|reflexivity| | | |].
      - intros _. rewrite ovl_start. apply (b_pos _ _ _ HB).
      - apply is_vec_vec, HP.
      - apply is_vec_vec, HP.
      - intros i Hi. apply (sf_div _ _ SF). auto. }
    intros K' HK'. wok. exists K'. split; [reflexivity|exact HK']. }
  apply wp_exists in Hdo. destruct Hdo as [q2 [Eq [K' [-> [HK' [Ej [Ei Ev]]]]]]].
  exists K'. split; [exact Eq|]. split; [exact Ej|]. split; [exact Ei|].
  split; [rewrite (kr_nnz _ _ _ _ HK'), (kr_nnz _ _ _ _ HK); reflexivity|].
  split; [rewrite (kr_sn _ _ _ _ HK'), (kr_sn _ _ _ _ HK); reflexivity|].
  split; [rewrite (kr_sm _ _ _ _ HK'), (kr_sm _ _ _ _ HK); reflexivity|].
  rewrite <- En, <- Em, <- Ep. split.
  - intros i Hi. destruct (Hlast i Hi) as [l' [v' E]].
    destruct (Csc_last _ _ _ _ _ (pn B + pp B + i) l' _ v' (kr_csc _ _ _ _ HK) ltac:(unfold pN; lia) E) as [L1 [L2 L3]].
    destruct (sf_div _ _ SF (fopp A (ptS A pt i)) (ptZ A pt i) (HIz i Hi)) as [v Hv].
    exists (start (ovl (K0 A B) w) (pn B + pp B + i + 1) - 1), (ptS A pt i), (ptZ A pt i), v.
    split; [exact L1|]. split; [exact L2|]. split; [apply HP; auto|]. split; [apply HP; auto|]. split; [exact Hv|].
    rewrite Ev, U1 by auto. unfold scalF, dv. rewrite Hv. reflexivity.
  - intros k Hk. rewrite Ev, U2; auto. intros i Hi E. apply (Hk i Hi).
    rewrite (csc_jc _ _ _ _ _ (kr_csc _ _ _ _ HK)) by (unfold pN; lia). f_equal. lia.
Qed.

Lemma constant_part A B (q0 q : qp (car A)) cap0 : KktRep (k_mat (q_kkt q0)) (pN B) cap0 (K0 A B) ->
  nnz (k_mat (q_kkt q0)) = start (K0 A B) (pN B) -> Base A B q ->
  (forall i, 0 <= i < pm B -> start (K0 A B) (pn B + pp B + i) < start (K0 A B) (pn B + pp B + i + 1)) ->
  (forall j, 0 <= j <= pN B -> rd (jc (k_mat (q_kkt q))) j = rd (jc (k_mat (q_kkt q0))) j) /\
  (forall k, 0 <= k < nnz (k_mat (q_kkt q0)) -> rd (ir (k_mat (q_kkt q))) k = rd (ir (k_mat (q_kkt q0))) k) /\
  (forall k, 0 <= k < nnz (k_mat (q_kkt q0)) ->
     (forall i, 0 <= i < pm B -> rd (jc (k_mat (q_kkt q0))) (pn B + pp B + i + 1) <> Ok (k + 1)) ->
     rd (pr (k_mat (q_kkt q))) k = rd (pr (k_mat (q_kkt q0))) k).
Proof.
  intros HK0 Hnz HB Hinc. destruct (b_K _ _ _ HB) as [cap [w [HK Hw]]].
  pose proof (b_n0 _ _ _ HB) as Hn0. pose proof (b_m1 _ _ _ HB) as Hm1. pose proof (b_p0 _ _ _ HB) as Hp0.
  destruct (updw_at A (K0 A B) (pn B + pp B) (pm B) (fun _ => f0 A) ltac:(lia) ltac:(lia) Hinc) as [_ U2].
  pose proof (kr_csc _ _ _ _ HK) as C. pose proof (kr_csc _ _ _ _ HK0) as C0.
  rewrite Hnz. split; [|split].
  - intros j Hj. rewrite (csc_jc _ _ _ _ _ C), (csc_jc _ _ _ _ _ C0), ovl_start by auto. reflexivity.
  - intros k Hk. destruct (start_decompose (K0 A B) (pN B) k (kr_N _ _ _ _ HK) Hk) as [j [t0 [Hj [Ht Ek]]]].
    assert (Et : exists t, t0 = Z.of_nat t) by (exists (Z.to_nat t0); lia). destruct Et as [t ->].
    destruct (nth_error (K0 A B j) t) as [[r0 v0]|] eqn:En0; [|apply nth_error_None in En0; unfold zlen in Ht; lia].
    destruct (nth_error (ovl (K0 A B) w j) t) as [[r1 v1]|] eqn:En1.
    2:{ apply nth_error_None in En1. unfold zlen in Ht. pose proof (ovl_l_len (start (K0 A B) j) w (K0 A B j)) as L.
        unfold ovl in En1. unfold zlen in L. lia. }
    pose proof (csc_ir _ _ _ _ _ C j t r1 v1 Hj En1) as R1. pose proof (csc_ir _ _ _ _ _ C0 j t r0 v0 Hj En0) as R0.
    rewrite ovl_start in R1. apply ovl_l_nth in En1. destruct En1 as [v2 [E3 _]]. rewrite E3 in En0. injection En0 as -> ->.
    subst k. congruence.
  - intros k Hk Hno. destruct (start_decompose (K0 A B) (pN B) k (kr_N _ _ _ _ HK) Hk) as [j [t0 [Hj [Ht Ek]]]].
    assert (Et : exists t, t0 = Z.of_nat t) by (exists (Z.to_nat t0); lia). destruct Et as [t ->].
    destruct (nth_error (K0 A B j) t) as [[r0 v0]|] eqn:En0; [|apply nth_error_None in En0; unfold zlen in Ht; lia].
    destruct (nth_error (ovl (K0 A B) w j) t) as [[r1 v1]|] eqn:En1.
    2:{ apply nth_error_None in En1. unfold zlen in Ht. pose proof (ovl_l_len (start (K0 A B) j) w (K0 A B j)) as L.
        unfold ovl in En1. unfold zlen in L. lia. }
    pose proof (csc_pr _ _ _ _ _ C j t r1 v1 Hj En1) as R1. pose proof (csc_pr _ _ _ _ _ C0 j t r0 v0 Hj En0) as R0.
    rewrite ovl_start in R1. apply ovl_l_nth in En1. destruct En1 as [v2 [E3 E4]]. rewrite E3 in En0. injection En0 as -> ->.
    assert (Hw0 : w k = None).
    { destruct (w k) as [v3|] eqn:Ew; auto. destruct (Hw (fun _ => f0 A) _ _ Ew) as [v4 E5]. rewrite U2 in E5; [discriminate|].
      intros i Hi E6. apply (Hno i Hi). rewrite (csc_jc _ _ _ _ _ C0) by (unfold pN; lia). f_equal. lia. }
    subst k. rewrite Hw0 in E4. congruence.
Qed.

(** Over a whole session: pointers, indices and all entries outside the scaling diagonal are those of setup. *)
Theorem C05_constant_part A ps amd (u : user (car A)) l q0 codes q : Safe A ps -> valid_user amd u -> covered u ->
  quiet_calls A u l -> setup A amd u = Ok q0 -> session A amd u l = Ok (codes, q) ->
  let K := k_mat (q_kkt q) in let K0 := k_mat (q_kkt q0) in
  (forall j, 0 <= j <= u_N u -> rd (jc K) j = rd (jc K0) j) /\
  (forall k, 0 <= k < nnz K0 -> rd (ir K) k = rd (ir K0) k) /\
  (forall k, 0 <= k < nnz K0 -> (forall i, 0 <= i < u_m u -> rd (jc K0) (u_n u + u_pe u + i + 1) <> Ok (k + 1)) ->
     rd (pr K) k = rd (pr K0) k).
Proof.
  intros SF HV Hc Hq HS0 HS. cbv zeta.
  destruct (session_ok A amd u l ps SF HV Hq) as [q0' [q' [B [r [E0 [HSt [E1 [HA [HI _]]]]]]]]].
  rewrite HS in E1. injection E1 as E1 E2. subst q'. clear E1. rewrite HS0 in E0. injection E0 as E0. subst q0'.
  pose proof (started_rows A amd u B q0 r HV HSt Hc) as HR.
  pose proof (sd_n _ _ _ _ _ HSt) as [En [Em [Ep _]]]. destruct HA as [HB HP _ _].
  pose proof (sd_K _ _ _ _ _ HSt) as HK0.
  pose proof (b_n0 _ _ _ HB) as Hn0. pose proof (b_m1 _ _ _ HB) as Hm1. pose proof (b_p0 _ _ _ HB) as Hp0.
  assert (Hinc : forall i, 0 <= i < pm B -> start (K0 A B) (pn B + pp B + i) < start (K0 A B) (pn B + pp B + i + 1)).
  { intros i Hi. rewrite start_succ by lia. replace (K0 A B (pn B + pp B + i)) with (tcol (pG B) (pn B) i ++ [(pn B + pp B + i, minus_one A i)])
      by (rewrite (sd_K0 _ _ _ _ _ HSt); symmetry; apply kkt_col_last; auto; lia).
    rewrite zlen_app, zlen_cons, zlen_nil. pose proof (zlen_nonneg (tcol (pG B) (pn B) i)). lia. }
  assert (EN : u_N u = pN B) by (unfold u_N, pN; lia).
  assert (Hnz : nnz (k_mat (q_kkt q0)) = start (K0 A B) (pN B)).
  { destruct (K_rep A amd u q0 (sf_piv _ _ SF) HV HS0) as [c' [HK1 Hc']]. specialize (Hc' Hc).
    rewrite (kr_nnz _ _ _ _ HK1), <- Hc', EN. destruct (sd_B _ _ _ _ _ HSt) as [Pf [Qf [par ->]]]. reflexivity. }
  rewrite EN, <- En, <- Em, <- Ep. exact (constant_part A B q0 q _ HK0 Hnz HB Hinc).
Qed.

(** The same directly after setup for arbitrary s and z (in exact arithmetic: nonzero z). *)
Theorem C05_update_any_sz A amd (u : user (car A)) q s z ds dz ap ad : div_ok A -> valid_user amd u -> covered u ->
  setup A amd u = Ok q ->
  (forall i, 0 <= i < u_m u -> exists si zi v, rd s i = Ok si /\ rd z i = Ok zi /\ fdiv A (fopp A si) zi = Ok v) ->
  let K := k_mat (q_kkt q) in
  exists K', updatekktmatrix A K s z ds dz ap ad (u_m u) (u_n u) (u_pe u) 0 = Ok K' /\
    jc K' = jc K /\ ir K' = ir K /\
    (forall i si zi v, 0 <= i < u_m u -> rd s i = Ok si -> rd z i = Ok zi -> fdiv A (fopp A si) zi = Ok v ->
       exists k, rd (jc K) (u_n u + u_pe u + i + 1) = Ok (k + 1) /\ rd (ir K) k = Ok (u_n u + u_pe u + i) /\
         rd (pr K') k = Ok v) /\
    (forall k, (forall i, 0 <= i < u_m u -> rd (jc K) (u_n u + u_pe u + i + 1) <> Ok (k + 1)) ->
       rd (pr K') k = rd (pr K) k).
Proof.
  intros Hdiv HV Hc HS Hsz. cbv zeta.
  destruct (setup_started A amd u q Hdiv HV HS) as [B [r HSt]].
  pose proof (started_rows A amd u B q r HV HSt Hc) as HR.
  pose proof (sd_n _ _ _ _ _ HSt) as [En [Em [Ep _]]]. pose proof (sd_K _ _ _ _ _ HSt) as HK.
  destruct (at_base _ _ _ _ (sd_at _ _ _ _ _ HSt)) as [_ _ _ _ Hn0 Hm1 Hp0 _ _ _ _ _ _ _ _ _ _ _ _ _ _ _ _ _ _ Hpos _ _].
  rewrite <- En, <- Em, <- Ep in *.
  set (fs := get (f0 A) s). set (fz := get (f0 A) z).
  assert (Vs : vec s (pm B) fs) by (apply filled_vec; intros i Hi; destruct (Hsz i Hi) as [a [b [c [E _]]]]; eauto).
  assert (Vz : vec z (pm B) fz) by (apply filled_vec; intros i Hi; destruct (Hsz i Hi) as [a [b [c [_ [E _]]]]]; eauto).
  assert (Hdo : wp (updatekktmatrix A (k_mat (q_kkt q)) s z ds dz ap ad (pm B) (pn B) (pp B) 0)
     (fun K' => jc K' = jc (k_mat (q_kkt q)) /\ ir K' = ir (k_mat (q_kkt q)) /\
     forall k, rd (pr K') k = match updw A (K0 A B) (pn B + pp B) (pm B) (scalF A fs fz) k with
                              Some v => Ok v | None => rd (pr (k_mat (q_kkt q))) k end)).
  { eapply wp_mono.
    - eapply (updatekktmatrix_ok A _ (pN B) _ (K0 A B) _ _ _ _ _ _ (pm B) (pn B) (pp B) fs fz);
        [exact HK|lia|lia|lia|reflexivity|intros _; exact Hpos|exact Vs|exact Vz|].
      intros i Hi. destruct (Hsz i Hi) as [a [b [c [E1 [E2 E3]]]]]. exists c.
      unfold fs, fz. rewrite (get_rd _ _ _ _ E1), (get_rd _ _ _ _ E2). exact E3.
    - intros K' HK'. apply HK'. }
  apply wp_exists in Hdo. destruct Hdo as [K' [Eq [Ej [Ei Ev]]]]. exists K'.
  split; [exact Eq|]. split; [exact Ej|]. split; [exact Ei|].
  assert (Hlast : forall i, 0 <= i < pm B -> K0 A B (pn B + pp B + i) = tcol (pG B) (pn B) i ++ [(pn B + pp B + i, minus_one A i)]).
  { intros i Hi. rewrite (sd_K0 _ _ _ _ _ HSt). apply kkt_col_last; auto; lia. }
  assert (Hinc : forall i, 0 <= i < pm B -> start (K0 A B) (pn B + pp B + i) < start (K0 A B) (pn B + pp B + i + 1)).
  { intros i Hi. rewrite start_succ by lia. rewrite Hlast by auto. rewrite zlen_app, zlen_cons, zlen_nil.
    pose proof (zlen_nonneg (tcol (pG B) (pn B) i)). lia. }
  destruct (updw_at A (K0 A B) (pn B + pp B) (pm B) (scalF A fs fz) ltac:(lia) ltac:(lia) Hinc) as [U1 U2]. split.
  - intros i si zi v Hi R1 R2 R3.
    destruct (Csc_last _ _ _ _ _ (pn B + pp B + i) _ _ _ (kr_csc _ _ _ _ HK) ltac:(unfold pN; lia) (Hlast i Hi)) as [L1 [L2 L3]].
    exists (start (K0 A B) (pn B + pp B + i + 1) - 1). split; [exact L1|]. split; [exact L2|].
    rewrite Ev, U1 by auto. unfold scalF, dv, fs, fz. rewrite (get_rd _ _ _ _ R1), (get_rd _ _ _ _ R2), R3. reflexivity.
  - intros k Hk. rewrite Ev, U2; auto. intros i Hi E. apply (Hk i Hi).
    rewrite (csc_jc _ _ _ _ _ (kr_csc _ _ _ _ HK)) by (unfold pN; lia). f_equal. lia.
Qed.

Lemma updw_last A (col : cols (car A)) off d i m : 0 <= i < m ->
  (forall j, i < j < m -> start col (off + j + 1) <> start col (off + i + 1)) ->
  updw A col off m d (start col (off + i + 1) - 1) = Some (d i).
Proof.
  intros [Hi Hm]. apply Zlt_le_succ in Hm. unfold Z.succ in Hm. revert m Hm.
  apply (zr_ind (fun m => (forall j, i < j < m -> start col (off + j + 1) <> start col (off + i + 1)) ->
     updw A col off m d (start col (off + i + 1) - 1) = Some (d i))).
  - intros _. rewrite updw_succ, Z.eqb_refl by lia. reflexivity.
  - intros k Hk IH H. rewrite updw_succ by lia. specialize (H k ltac:(lia)) as Hk2.
    destruct (Z.eqb_spec (start col (off + i + 1) - 1) (start col (off + k + 1) - 1)); [lia|].
    apply IH. intros j Hj. apply H. lia.
Qed.

(** Without a stored coefficient in row i (and with one in the next row, if any), the value -s_i/z_i
    lands in the last cell before column n+p+i, which belongs to an earlier column. *)
Theorem C05_neighbour_overwritten A amd (u : user (car A)) q s z ds dz ap ad i si zi v :
  div_ok A -> valid_user amd u -> setup A amd u = Ok q ->
  (forall i, 0 <= i < u_m u -> exists si zi v, rd s i = Ok si /\ rd z i = Ok zi /\ fdiv A (fopp A si) zi = Ok v) ->
  0 <= i < u_m u -> (forall j v, 0 <= j < u_n u -> ~ stored (u_Gjc u) (u_Gir u) (u_Gpr u) i j v) ->
  (i + 1 < u_m u -> exists j v, 0 <= j < u_n u /\ stored (u_Gjc u) (u_Gir u) (u_Gpr u) (i + 1) j v) ->
  rd s i = Ok si -> rd z i = Ok zi -> fdiv A (fopp A si) zi = Ok v ->
  let K := k_mat (q_kkt q) in
  exists K' k, updatekktmatrix A K s z ds dz ap ad (u_m u) (u_n u) (u_pe u) 0 = Ok K' /\
    rd (jc K) (u_n u + u_pe u + i) = Ok (k + 1) /\ rd (jc K) (u_n u + u_pe u + i + 1) = Ok (k + 1) /\
    jc K' = jc K /\ ir K' = ir K /\ rd (pr K') k = Ok v.
Proof.
  intros Hdiv HV HS Hsz Hi Hno Hnext Rs Rz Rv. cbv zeta.
  destruct (setup_started A amd u q Hdiv HV HS) as [B [r HSt]].
  pose proof (sd_n _ _ _ _ _ HSt) as [En [Em [Ep _]]]. pose proof (sd_K _ _ _ _ _ HSt) as HK.
  destruct (at_base _ _ _ _ (sd_at _ _ _ _ _ HSt)) as [_ _ _ _ Hn0 Hm1 Hp0 _ _ _ _ _ _ _ _ _ _ _ _ _ _ _ _ _ _ Hpos _ _].
  assert (EG : pG B = column (f0 A) (u_Gjc u) (u_Gir u) (u_Gpr u)) by (destruct (sd_B _ _ _ _ _ HSt) as [Pf [Qf [par ->]]]; reflexivity).
  rewrite <- En, <- Em, <- Ep in *.
  set (fs := get (f0 A) s). set (fz := get (f0 A) z).
  assert (Vs : vec s (pm B) fs) by (apply filled_vec; intros k Hk; destruct (Hsz k Hk) as [a [b [c [E _]]]]; eauto).
  assert (Vz : vec z (pm B) fz) by (apply filled_vec; intros k Hk; destruct (Hsz k Hk) as [a [b [c [_ [E _]]]]]; eauto).
  assert (Hdo : wp (updatekktmatrix A (k_mat (q_kkt q)) s z ds dz ap ad (pm B) (pn B) (pp B) 0)
     (fun K' => jc K' = jc (k_mat (q_kkt q)) /\ ir K' = ir (k_mat (q_kkt q)) /\
     forall k, rd (pr K') k = match updw A (K0 A B) (pn B + pp B) (pm B) (scalF A fs fz) k with
                              Some v => Ok v | None => rd (pr (k_mat (q_kkt q))) k end)).
  { eapply wp_mono.
    - eapply (updatekktmatrix_ok A _ (pN B) _ (K0 A B) _ _ _ _ _ _ (pm B) (pn B) (pp B) fs fz);
        [exact HK|lia|lia|lia|reflexivity|intros _; exact Hpos|exact Vs|exact Vz|].
      intros k Hk. destruct (Hsz k Hk) as [a [b [c [E1 [E2 E3]]]]]. exists c.
      unfold fs, fz. rewrite (get_rd _ _ _ _ E1), (get_rd _ _ _ _ E2). exact E3.
    - intros K' HK'. apply HK'. }
  apply wp_exists in Hdo. destruct Hdo as [K' [Eq [Ej [Ei Ev]]]].
  assert (E : tcol (pG B) (pn B) i = []).
  { destruct (tcol (pG B) (pn B) i) as [|[j w] l] eqn:E; auto. exfalso.
    assert (Hin : In (j, w) (tcol (pG B) (pn B) i)) by (rewrite E; left; auto).
    apply in_tcol in Hin. destruct Hin as [Hj Hin]. apply (Hno j w Hj). rewrite EG in Hin.
    apply (gcol_in A amd u HV); [rewrite <- En; exact Hj|exact Hin]. }
  assert (Est : start (K0 A B) (pn B + pp B + i + 1) = start (K0 A B) (pn B + pp B + i)).
  { rewrite start_succ by lia. rewrite (sd_K0 _ _ _ _ _ HSt). set (st := start _ _). unfold kkt_col. destruct (Z.ltb_spec (pn B + pp B + i) (pn B)); [lia|].
    destruct (Z.ltb_spec (pn B + pp B + i) (pn B + pp B)); [lia|].
    replace (pn B + pp B + i - pn B - pp B) with i by lia. rewrite E, zlen_nil. lia. }
  exists K', (start (K0 A B) (pn B + pp B + i) - 1). split; [exact Eq|].
  split; [rewrite (csc_jc _ _ _ _ _ (kr_csc _ _ _ _ HK)) by (unfold pN; lia); f_equal; lia|].
  split; [rewrite (csc_jc _ _ _ _ _ (kr_csc _ _ _ _ HK)) by (unfold pN; lia); f_equal; lia|].
  split; [exact Ej|]. split; [exact Ei|]. rewrite Ev, <- Est, updw_last; auto.
  - unfold scalF, dv, fs, fz. rewrite (get_rd _ _ _ _ Rs), (get_rd _ _ _ _ Rz), Rv. reflexivity.
  - intros j Hj. destruct (Hnext ltac:(lia)) as [j1 [w [Hj1 Hst]]].
    assert (Hne : tcol (pG B) (pn B) (i + 1) <> []).
    { intros E2. assert (Hin : In (j1, w) (tcol (pG B) (pn B) (i + 1))).
      { apply in_tcol. split; [exact Hj1|]. rewrite EG. apply (gcol_in A amd u HV); [rewrite <- En; exact Hj1|exact Hst]. }
      rewrite E2 in Hin. contradiction. }
    pose proof (start_mono (K0 A B) (pn B + pp B + (i + 1) + 1) (pn B + pp B + j + 1) ltac:(lia)) as M.
    rewrite (start_succ _ (pn B + pp B + (i + 1))) in M by lia. rewrite (sd_K0 _ _ _ _ _ HSt) in M. rewrite kkt_col_last in M by (auto; lia). rewrite <- (sd_K0 _ _ _ _ _ HSt) in M.
    rewrite zlen_app, zlen_cons, zlen_nil in M. pose proof (zlen_nonneg (tcol (pG B) (pn B) (i + 1))).
    replace (pn B + pp B + (i + 1)) with (pn B + pp B + i + 1) in M by lia. lia.
Qed.

(** With no stored coefficient anywhere (n = m = 1, P = G = 0) the update writes before the array. *)
Theorem C05_empty_writes_before_array A s z v ds dz ap ad : fdiv A (fopp A s) z = Ok v ->
  let E := SparseMatrixSetup A 1 1 0 (zs [0; 0]) [] [] in
  exists Gt K, setup_transpose A E = Ok Gt /\
    formkktmatrix_full A E E None Gt (SparseMatrixSetup A 2 2 1 (malloc Z 3) (malloc Z 1) (malloc (car A) 1)) = Ok K /\
    updatekktmatrix A K [Some s] [Some z] ds dz ap ad 1 1 0 0 = Ub OobWrite.
Proof.
  intros H. cbv zeta. eexists. eexists. split; [vm_compute; reflexivity|]. split; [vm_compute; reflexivity|].
  revert H. destruct A. vm_compute. intros ->. reflexivity.
Qed.

(** ** Concrete cases *)

Lemma gappy_row1 A : forall j v, 0 <= j < u_n (gappy A) ->
  ~ stored (u_Gjc (gappy A)) (u_Gir (gappy A)) (u_Gpr (gappy A)) 1 j v.
Proof.
  intros j v Hj [a [b [k [E1 [E2 [Hk [E3 E4]]]]]]]. change (u_n (gappy A)) with 1 in Hj. enum j.
  cbn in E1, E2. injection E1 as <-. injection E2 as <-. assert (k = 0) by lia. subst k. discriminate E3.
Qed.

(** C04 does not hold for every problem: the library example with a vacuous second inequality. *)
Theorem C04_kkt_assembly_refuted : exists amd (u : user R) q,
  valid_user amd u /\ setup RA amd u = Ok q /\ 1 < u_m u /\
  (forall a v, ~ stored (jc (k_mat (q_kkt q))) (ir (k_mat (q_kkt q))) (pr (k_mat (q_kkt q))) a (u_n u + u_pe u + 1) v) /\
  kkt_entry (user_qp u) (u_n u + u_pe u + 1) (u_n u + u_pe u + 1) = (-1)%R.
Proof.
  set (amd := (fun _ _ _ P => Ok (0, P)) : amd_t).
  pose proof (setup_ok RA amd (gappy RA) div_ok_R (gappy_valid RA amd)) as H. apply (proj1 (wp_exists _ _)) in H.
  destruct H as [q [E _]]. exists amd, (gappy RA), q. split; [apply (gappy_valid RA amd)|]. split; [exact E|]. split; [reflexivity|].
  split; [|reflexivity]. apply (C04_missing_diagonal RA amd (gappy RA) q div_ok_R (gappy_valid RA amd) E 1).
  - split; [discriminate|reflexivity].
  - apply (gappy_row1 RA).
Qed.

(** C05 does not hold without the coverage condition: the diagonal entry of row 0 becomes -s_1/z_1. *)
Theorem C05_kkt_update_refuted : exists amd (u : user R) q s z ds dz ap ad K' k,
  valid_user amd u /\ setup RA amd u = Ok q /\
  rd s 0 = Ok 1%R /\ rd z 0 = Ok 1%R /\ rd s 1 = Ok 1%R /\ rd z 1 = Ok 2%R /\
  updatekktmatrix RA (k_mat (q_kkt q)) s z ds dz ap ad (u_m u) (u_n u) (u_pe u) 0 = Ok K' /\
  rd (jc K') (u_n u + u_pe u + 0 + 1) = Ok (k + 1) /\ rd (ir K') k = Ok (u_n u + u_pe u + 0) /\
  rd (pr K') k <> Ok (- 1 / 1)%R.
Proof.
  set (amd := (fun _ _ _ P => Ok (0, P)) : amd_t).
  pose proof (setup_ok RA amd (gappy RA) div_ok_R (gappy_valid RA amd)) as H. apply (proj1 (wp_exists _ _)) in H.
  destruct H as [q [E HSt]]. destruct HSt as [B [r HSt]].
  assert (D1 : fdiv RA (fopp RA 1%R) 1%R = Ok (- 1 / 1)%R) by (apply RA_div; lra).
  assert (D2 : fdiv RA (fopp RA 1%R) 2%R = Ok (- 1 / 2)%R) by (apply RA_div; lra).
  destruct (C05_neighbour_overwritten RA amd (gappy RA) q [Some 1%R; Some 1%R] [Some 1%R; Some 2%R] [] [] 0%R 0%R 1 1%R 2%R (-1/2)%R)
    as [K' [k [H1 [H2 [H3 [H4 [H5 H6]]]]]]].
  - exact div_ok_R.
  - apply (gappy_valid RA amd).
  - exact E.
  - intros i Hi. change (u_m (gappy RA)) with 2 in Hi. enum i; do 3 eexists; (split; [reflexivity|split; [reflexivity|eassumption]]).
  - split; [discriminate|reflexivity].
  - apply (gappy_row1 RA).
  - intros Hlt. discriminate Hlt.
  - reflexivity.
  - reflexivity.
  - exact D2.
  - exists amd, (gappy RA), q, [Some 1%R; Some 1%R], [Some 1%R; Some 2%R], [], [], 0%R, 0%R, K', k.
    split; [apply (gappy_valid RA amd)|]. split; [exact E|]. do 4 (split; [reflexivity|]). split; [exact H1|].
    rewrite H4, H5. split; [exact H2|].
    pose proof (sd_K _ _ _ _ _ HSt) as HK. destruct (sd_B _ _ _ _ _ HSt) as [Pf [Qf [par EB]]].
    assert (EC : K0 RA B 1 = [(0, (-1)%R); (1, (-1)%R)]) by (rewrite EB; reflexivity).
    change ([(0, (-1)%R); (1, (-1)%R)]) with ([(0, (-1)%R)] ++ [(1, (-1)%R)]) in EC.
    assert (HN : pN B = 3) by (rewrite EB; reflexivity).
    destruct (Csc_last _ _ _ _ _ 1 _ _ _ (kr_csc _ _ _ _ HK) ltac:(rewrite HN; lia) EC) as [L1 [L2 _]].
    change (u_n (gappy RA) + u_pe (gappy RA) + 0) with 1.
    change (u_n (gappy RA) + u_pe (gappy RA) + 1) with (1 + 1) in H2. cbn [car RA] in *. rewrite L1 in H2. injection H2 as Hk.
    assert (Ek : k = start (K0 RA B) (1 + 1) - 1) by (cbn [car RA] in *; lia).
    split; [rewrite Ek; exact L2|]. rewrite H6. intros Habs. injection Habs as Habs. lra.
Qed.

(** A case of C04 and C05: the library's example, in any arithmetic. *)
Example C04_C05_case A ps amd : Safe A ps -> exists q,
  valid_user amd (demo A) /\ covered (demo A) /\ setup A amd (demo A) = Ok q /\
  exists codes q', quiet_calls A (demo A) [Solve A] /\ session A amd (demo A) [Solve A] = Ok (codes, q').
Proof.
  intros SF. pose proof (demo_valid A amd) as V.
  assert (Q : quiet_calls A (demo A) [Solve A]) by (left; discriminate).
  destruct (session_ok A amd (demo A) [Solve A] ps SF V Q) as [q0 [q [B [r [E0 [_ [E1 _]]]]]]].
  exists q0. split; [exact V|]. split; [apply demo_covered|]. split; [exact E0|].
  eexists _, q. split; [exact Q|]. exact E1.
Qed.

Print Assumptions C04_kkt_assembly.
Print Assumptions C04_missing_diagonal.
Print Assumptions C04_kkt_entries.
Print Assumptions C04_kkt_assembly_refuted.
Print Assumptions C05_kkt_update.
Print Assumptions C05_constant_part.
Print Assumptions C05_update_any_sz.
Print Assumptions C05_neighbour_overwritten.
Print Assumptions C05_kkt_update_refuted.
Print Assumptions C05_empty_writes_before_array.
