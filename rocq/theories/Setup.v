(** QP_SETUP and QP_SETUP_dense: what the handle holds afterwards. *)
From Coq Require Import ZArith Reals List Lia Lra Bool.
From RecordUpdate Require Import RecordUpdate.
From Verif Require Import Res Arith Lists MSparse Csc SemVec Flat DenseProofs TransposeProofs KktProofs MLdl MSolver
  LdlSpec LdlSym LdlNum LdlFun VecOps Iter.
Import ListNotations.
Open Scope Z_scope.
Open Scope res_scope.

(** ** Caller's arrays *)

(** Three arrays with nondecreasing column pointers starting at 0 hold the columns read off them. *)
Definition raw_col {F} (fj fi : Z -> Z) (fx : Z -> F) (j : Z) : list (Z * F) :=
  map (fun t => (fi t, fx t)) (zr (fj j) (fj (j + 1))).

Lemma raw_col_start {F} fj fi (fx : Z -> F) n j :
  fj 0 = 0 -> (forall j, 0 <= j < n -> fj j <= fj (j + 1)) -> 0 <= j <= n -> start (raw_col fj fi fx) j = fj j.
Proof.
  intros H0 Hm Hj. assert (Hj' : 0 <= j) by lia. revert Hj. pattern j. revert j Hj'. apply zr_ind.
  - intros _. rewrite start_0. auto.
  - intros k Hk IH Hkn. rewrite start_succ, IH by lia. unfold raw_col. rewrite zlen_map, zlen_zr.
    specialize (Hm k ltac:(lia)). lia.
Qed.

Lemma raw_Csc {F} Jc Ir (Pr : arr F) m n fj fi fx :
  fj 0 = 0 -> (forall j, 0 <= j < n -> fj j <= fj (j + 1)) ->
  (forall t, 0 <= t < fj n -> 0 <= fi t < m) ->
  vec Jc (n + 1) fj -> vec Ir (fj n) fi -> vec Pr (fj n) fx ->
  Csc Jc Ir Pr n (raw_col fj fi fx) /\ rows_in m n (raw_col fj fi fx).
Proof.
  intros H0 Hm Hr HJ HI HX.
  assert (HS : forall j, 0 <= j <= n -> start (raw_col fj fi fx) j = fj j)
    by (intros; eapply raw_col_start; eauto).
  assert (Hmono : forall a b, 0 <= a <= b -> b <= n -> fj a <= fj b).
  { intros a b Hab Hb. rewrite <- !HS by lia. apply start_mono. lia. }
  assert (Hnth : forall j t r v, 0 <= j < n -> nth_error (raw_col fj fi fx j) t = Some (r, v) ->
     0 <= fj j + Z.of_nat t < fj n /\ r = fi (fj j + Z.of_nat t) /\ v = fx (fj j + Z.of_nat t)).
  { intros j t r v Hj Ht. unfold raw_col, zr in Ht. rewrite map_map in Ht.
    assert (Hlen : lt t (Z.to_nat (fj (j + 1) - fj j))).
    { match type of Ht with ?x = _ => assert (Hne : x <> None) by congruence end.
      apply nth_error_Some in Hne. rewrite map_length, seq_length in Hne. exact Hne. }
    rewrite nth_error_map in Ht. rewrite (nth_error_nth' _ O) in Ht by (rewrite seq_length; auto).
    rewrite seq_nth in Ht by auto. cbn in Ht. inversion Ht; subst. clear Ht.
    pose proof (Hmono 0 j ltac:(lia) ltac:(lia)). pose proof (Hmono (j + 1) n ltac:(lia) ltac:(lia)).
    repeat split; lia. }
  split; [split|].
  - intros j Hj. rewrite HS by auto. apply HJ. lia.
  - intros j t r v Hj Ht. rewrite HS by lia. destruct (Hnth _ _ _ _ Hj Ht) as [H1 [-> _]]. apply HI. auto.
  - intros j t r v Hj Ht. rewrite HS by lia. destruct (Hnth _ _ _ _ Hj Ht) as [H1 [_ ->]]. apply HX. auto.
  - intros j r v Hj Hin. apply In_nth_error in Hin. destruct Hin as [t Ht].
    destruct (Hnth _ _ _ _ Hj Ht) as [H1 [-> _]]. apply Hr. auto.
Qed.

Lemma setup_Repr A (Jc Ir : arr Z) (Pr : arr (car A)) m n nz col :
  0 <= m -> 0 <= n -> Csc Jc Ir Pr n col -> rows_in m n col -> nz = start col n ->
  Repr (SparseMatrixSetup A m n nz Jc Ir Pr) m n col.
Proof. intros. split; auto. Qed.

Section Setup.
Variable A : Arith.
Notation F := (car A).
Notation zero := (f0 A).
Notation one := (f1 A).

(** ** The start point *)

Definition initB (B : prob F) : Z -> F := stack3 A (pn B) (pp B) (fun i => fopp A (pc B i)) (pb B) (ph B).
Definition initU (B : prob F) : Z -> F := solF A (pN B) (K0 A B) (pPf B) (pQf B) (ppar B) (initB B).
Definition initX (B : prob F) (i : Z) : F := initU B (0 + i).
Definition initY (B : prob F) (i : Z) : F := initU B (pn B + i).
(** h - G x *)
Definition initZi (B : prob F) : Z -> F :=
  axpyF A (fun i => multF A (pG B) (pn B) (initX B) i zero) (ph B) one.
Definition initAp (B : prob F) : F := fopp A (fst (minmaxF A (initZi B) (pm B))).
Definition initAd (B : prob F) : F := snd (minmaxF A (initZi B) (pm B)).
Definition initS (B : prob F) (i : Z) : F :=
  if flt A (initAp B) zero then initZi B i else fadd A (initZi B i) (fadd A one (initAp B)).
Definition initZ (B : prob F) (i : Z) : F :=
  if flt A (initAd B) zero then fopp A (initZi B i) else fadd A (fopp A (initZi B i)) (fadd A one (initAd B)).
Definition initF (B : prob F) : point A := mkPt A (initX B) (initY B) (initZ B) (initS B).

Lemma initF_interior ps B : Safe A ps -> interior A B ps (initF B).
Proof.
  intros SF. split; intros i Hi; cbn [initF ptS ptZ].
  - apply (sf_init_s _ _ SF). auto.
  - apply (sf_init_z _ _ SF). auto.
Qed.

(** ** kkt_initialize *)

Lemma kkt_initialize_ok q (B0 : prob F) cap :
  let n := pn B0 in let m := pm B0 in let p := pp B0 in let N := pN B0 in
  div_ok A -> 0 <= n -> 1 <= m -> 0 <= p ->
  q_n q = n -> q_m q = m -> q_p q = p ->
  Repr (q_G q) m n (pG B0) ->
  (p <> 0 -> exists bb, q_b q = Some bb /\ vec bb p (pb B0)) ->
  vec (q_c q) n (pc B0) -> vec (q_h q) m (ph B0) ->
  zlen (q_x q) = n -> zlen (q_y q) = p -> zlen (q_z q) = m -> zlen (q_s q) = m -> zlen (q_delta q) = N ->
  zlen (k_b (q_kkt q)) = N -> KktRep (k_mat (q_kkt q)) N cap (K0 A B0) ->
  isperm N (pPf B0) (pQf B0) -> vec (k_P (q_kkt q)) N (pPf B0) -> zlen (k_Pinv (q_kkt q)) = N ->
  wp (kkt_initialize A q) (fun r => fst r = true /\ exists k delta x y s z par,
     let B := mkProbK n m p (pP B0) (pA B0) (pG B0) (pc B0) (pb B0) (ph B0) (psd B0) (pPf B0) (pQf B0) par (K0 A B0) in
     snd r = q <| q_kkt := k |> <| q_delta := delta |> <| q_x := x |> <| q_y := y |> <| q_s := s |> <| q_z := z |> /\
     forest N par (brows (pPf B0) (pQf B0) (K0 A B0)) /\
     SymKkt A N (K0 A B0) (pPf B0) (pQf B0) par k /\ k_mat k = k_mat (q_kkt q) /\ k_P k = k_P (q_kkt q) /\
     zlen (k_b k) = N /\ zlen delta = N /\
     is_vec x n (initX B) /\ is_vec y p (initY B) /\ is_vec s m (initS B) /\ is_vec z m (initZ B)).
Proof.
  intros n m p N Hdiv Hn Hm Hp En Em Ep RG Hb Hc Hh Lx Ly Lz Ls Ld Lkb HK HP HvP LPi.
  unfold kkt_initialize. rewrite En, Em, Ep.
  assert (EN : N = n + p + m) by reflexivity.
  wb. eapply wp_mono.
  { replace n with (0 + n) at 1 by lia.
    apply (fill_part (fun i => fopp A (pc B0 i)) (fun i => fopp A (pc B0 i)) 0 n N); auto; try lia.
    - intros i Hi; lia.
    - intros i a' Hi. rewrite Hc by lia. simpl. f_equal. f_equal. f_equal. lia. }
  intros b1 [L1 H1]. wb. eapply wp_mono.
  { eapply (fill_part (pb B0) _ n p N); [lia|lia|lia|exact L1|exact H1|].
    intros i a' Hi. destruct (Hb ltac:(lia)) as [bb [E1 E2]]. rewrite E1. simpl. rewrite E2 by lia. reflexivity. }
  intros b2 [L2 H2]. wb. eapply wp_mono.
  { eapply (fill_part (ph B0) _ (n + p) m N); [lia|lia|lia|exact L2|exact H2|].
    intros i a' Hi. replace (i - n - p) with (i - (n + p)) by lia. rewrite Hh by lia. reflexivity. }
  intros b3 [L3 H3].
  assert (Hbv : is_vec b3 N (initB B0)).
  { split; auto. intros i Hi. rewrite H3 by lia. f_equal. unfold initB, stack3. fold n p.
    repeat match goal with |- context[?a <? ?b] => destruct (Z.ltb_spec a b) end; try lia; f_equal; try lia. f_equal; lia. }
  wb. eapply wp_mono.
  { eapply (ldlinitialsolve_ok A N cap (K0 A B0) (pPf B0) (pQf B0) _ _ (initB B0)); auto; cbn.
    apply (kr_N _ _ _ _ HK). }
  intros [[ok k] delta] [-> [par [HF [_ [HS [_ [Emat [EP [Hdel Hu]]]]]]]]].
  set (B := mkProbK n m p (pP B0) (pA B0) (pG B0) (pc B0) (pb B0) (ph B0) (psd B0) (pPf B0) (pQf B0) par (K0 A B0)).
  change (is_vec (k_b k) N (initU B)) in Hu.
  wb. eapply wp_mono.
  { replace n with (0 + n) at 1 by lia.
    eapply (copy_block_ok A _ (k_b k) 0 n N); [lia|lia|lia|exact Lx|apply is_vec_vec; exact Hu]. }
  intros x Hx. change (is_vec x n (initX B)) in Hx.
  wb. eapply wp_mono.
  { eapply (copy_block_ok A _ (k_b k) n p N); [lia|lia|lia|exact Ly|apply is_vec_vec; exact Hu]. }
  intros y Hy. change (is_vec y p (initY B)) in Hy.
  wb. eapply wp_mono.
  { eapply (Multiply_ok A _ m n (pG B0) _ _ (initX B) (fun _ => zero) true);
      [exact RG|apply is_vec_vec; exact Hx|apply zlen_malloc; lia|discriminate|auto]. }
  intros z1 G1. wb. eapply wp_mono.
  { eapply (updatevariables_ok A _ _ one); [exact G1|lia|exact Hh]. }
  intros z2 G2. change (is_vec z2 m (initZi B)) in G2.
  rewrite (findminmax_ok A z2 m (initZi B)) by (auto; apply is_vec_vec; exact G2).
  wb. wok. destruct (minmaxF A (initZi B) m) as [mn mx] eqn:Emm.
  assert (Eap : fopp A mn = initAp B) by (unfold initAp; change (pm B) with m; rewrite Emm; reflexivity).
  assert (Ead : mx = initAd B) by (unfold initAd; change (pm B) with m; rewrite Emm; reflexivity).
  rewrite Eap. rewrite Ead.
  wb. apply (wp_mono _ (fun s => is_vec s m (initS B))).
  { destruct (flt A (initAp B) zero) eqn:E; apply fill_ok; auto; try lia;
      intros i a' Hi; rewrite (is_vec_vec _ _ _ G2 i Hi); cbn [bind]; unfold initS; rewrite E; reflexivity. }
  intros s Hs. wb. apply (wp_mono _ (fun z => is_vec z m (initZ B))).
  { destruct (flt A (initAd B) zero) eqn:E; apply fill_ok; auto; try lia;
      intros i a' Hi; rewrite (is_vec_vec _ _ _ G2 i Hi); cbn [bind]; unfold initZ; rewrite E; reflexivity. }
  intros z Hz. wok. cbn [fst snd]. split; [reflexivity|].
  exists k, delta, x, y, s, z, par. split; [reflexivity|]. split; [exact HF|]. split; [exact HS|].
  split; [exact Emat|]. split; [exact EP|]. split; [apply Hu|]. split; [apply Hdel|]. auto.
Qed.

(** ** The ordering *)

(** What setup needs of the ordering package on a matrix with valid structure and at most [cap] entries: a status and an array;
    a permutation unless the status is negative; and when it is negative, the fallback loop (bound [nf])
    must fit the array. *)
Definition amd_ok (amd : amd_t) (N cap nf : Z) : Prop :=
  forall Jc Ir (Pr : arr F) col P, Csc Jc Ir Pr N col -> rows_in N N col -> start col N <= cap -> zlen P = N ->
    exists st P', amd N Jc Ir P = Ok (st, P') /\ zlen P' = N /\
      (0 <= st -> exists Pf Qf, isperm N Pf Qf /\ vec P' N Pf) /\ (st < 0 -> nf = N).

Definition perm_ok (amd : amd_t) (N cap nf : Z) (Permut : option (arr Z)) : Prop :=
  match Permut with
  | Some Pm => exists Pf Qf, isperm N Pf Qf /\ vec Pm N Pf
  | None => amd_ok amd N cap nf
  end.

Lemma isperm_id N : isperm N (fun i => i) (fun i => i).
Proof. split; auto. Qed.

Lemma setup_perm_ok amd K N cap col nf Permut :
  KktRep K N cap col -> perm_ok amd N cap nf Permut ->
  wp (setup_perm A amd K N nf Permut) (fun r => exists Pf Qf, isperm N Pf Qf /\ vec (fst r) N Pf /\
     match Permut with Some Pm => fst r = Pm /\ snd r = -3 | None => True end).
Proof.
  intros HK HP. unfold setup_perm. destruct Permut as [Pm|].
  - destruct HP as [Pf [Qf [H1 H2]]]. wok. exists Pf, Qf. auto.
  - pose proof (kr_N _ _ _ _ HK) as HN.
    destruct (HP (jc K) (ir K) (pr K) col (malloc Z N)) as [st [P' [E [L [H1 H2]]]]].
    + apply (kr_csc _ _ _ _ HK).
    + apply (kr_row _ _ _ _ HK).
    + apply (kr_cap _ _ _ _ HK).
    + apply zlen_malloc. auto.
    + rewrite (kr_sn _ _ _ _ HK), E. wb. wok. destruct (Z.ltb_spec st 0) as [Hs|Hs].
      * rewrite (H2 Hs). wb. eapply wp_mono; [apply (fill_ok (fun i => i)); auto|].
        intros P2 H3. wok. exists (fun i => i), (fun i => i). split; [apply isperm_id|].
        split; [apply is_vec_vec; exact H3|auto].
      * wok. destruct (H1 Hs) as [Pf [Qf [G1 G2]]]. exists Pf, Qf. auto.
Qed.

(** ** Everything after the matrices are known *)

Record DataOk (n m p : Z) (P G : smat F) (AM : option (smat F)) (c h : arr F) (b : option (arr F))
    (pcol acol gcol : cols F) (fc fb fh : Z -> F) : Prop := mkDataOk {
  do_m1 : 1 <= m;
  do_P : Repr P n n pcol;
  do_G : Repr G m n gcol;
  do_A : match AM with
         | Some M => p <> 0 /\ Repr M p n acol /\ exists bb, b = Some bb /\ vec bb p fb
         | None => p = 0 /\ acol = (fun _ => []) /\ b = None
         end;
  do_c : vec c n fc;
  do_h : vec h m fh;
  do_nz : 1 <= start pcol n + start acol n + start gcol n
}.

Lemma setup_transpose_ok M m n col : Repr M m n col -> wp (setup_transpose A M) (fun Mt => ReprX Mt n m (tcol col n)).
Proof.
  intros RM. unfold setup_transpose. pose proof (rp_nnz _ _ _ _ RM) as E.
  pose proof (start_nonneg col n). pose proof (rp_m _ _ _ _ RM). pose proof (rp_n _ _ _ _ RM).
  rewrite (rp_sn _ _ _ _ RM), (rp_sm _ _ _ _ RM).
  eapply SparseMatrixTranspose_ok; eauto; cbn; rewrite zlen_malloc; lia.
Qed.

Lemma b_pos_of n m p pcol acol gcol : 0 <= n -> 1 <= m -> 0 <= p ->
  1 <= start pcol n + start acol n + start gcol n ->
  1 <= start (kkt_col A n p pcol acol gcol (minus_one A)) (n + p + 1).
Proof.
  intros Hn Hm Hp H. pose proof (start_kkt_low A n p pcol acol gcol (minus_one A) n ltac:(lia)).
  pose proof (start_mono (kkt_col A n p pcol acol gcol (minus_one A)) n (n + p + 1) ltac:(lia)). lia.
Qed.

Lemma setup_core_ok amd n m p p_arg P G AM c h b sd Permut pcol acol gcol fc fb fh :
  div_ok A ->
  DataOk n m p P G AM c h b pcol acol gcol fc fb fh ->
  (AM <> None -> p_arg = p) ->
  perm_ok amd (n + p + m) (start pcol n + 2 * start gcol n + m + 2 * start acol n) (n + m + p_arg) Permut ->
  wp (setup_core A amd n m p_arg P G AM c h b sd Permut) (fun q => exists Pf Qf par r,
     let B := mkProb A n m p pcol acol gcol fc fb fh sd Pf Qf par in
     At A B q (mkSnap A (initF B) (default_settings A) ((initial_stats A) <| AMD_RESULT := r |>)) /\
     isperm (n + p + m) Pf Qf /\ vec (k_P (q_kkt q)) (n + p + m) Pf /\
     KktRep (k_mat (q_kkt q)) (n + p + m) (start pcol n + 2 * start gcol n + m + 2 * start acol n)
       (kkt_col A n p pcol acol gcol (minus_one A)) /\
     q_P q = P /\ q_G q = G /\ q_A q = AM /\ q_c q = c /\ q_h q = h /\ q_b q = b /\
     match Permut with Some Pm => k_P (q_kkt q) = Pm /\ r = -3 | None => True end).
Proof.
  intros Hdiv [Hm1 RP RG HA Hc Hh Hnz] Hparg HPm. unfold setup_core.
  pose proof (rp_n _ _ _ _ RP) as Hn.
  set (p' := match AM with Some _ => p_arg | None => 0 end).
  assert (Ep : p' = p).
  { unfold p'. destruct AM; [apply Hparg; discriminate|]. symmetry. apply HA. }
  rewrite Ep. clear p' Ep.
  assert (Hp : 0 <= p).
  { destruct AM; [apply HA|]. destruct HA as [-> _]. lia. }
  wb. apply (wp_mono _ (fun At => match AM, At with
      | Some M, Some Mt => Repr Mt n p (tcol acol n) | None, None => True | _, _ => False end)).
  { destruct AM as [M|].
    - destruct HA as [_ [RM _]]. wb. eapply wp_mono; [eapply setup_transpose_ok; exact RM|].
      intros Mt RT. wok. apply RT.
    - wok. exact I. }
  intros At HAt. wb. eapply wp_mono; [eapply setup_transpose_ok; exact RG|]. intros Gt RGt.
  pose proof (start_nonneg pcol n) as S1. pose proof (start_nonneg acol n) as S2. pose proof (start_nonneg gcol n) as S3.
  set (cap := start pcol n + 2 * start gcol n + m + 2 * start acol n).
  assert (Hacol : rows_in p n acol).
  { destruct AM; [apply HA|]. destruct HA as [_ [-> _]]. intros j r v _ []. }
  match goal with |- wp (let '(_, _) := ?e in _) _ => assert (Ek : e = (cap, n + p + m)) end.
  { rewrite (rp_nnz _ _ _ _ RP), (rp_nnz _ _ _ _ RG), (rp_sn _ _ _ _ RP), (rp_sm _ _ _ _ RG).
    destruct AM as [M|].
    - destruct HA as [_ [RM _]]. rewrite (rp_nnz _ _ _ _ RM), (rp_sm _ _ _ _ RM). reflexivity.
    - destruct HA as [-> [-> _]]. unfold cap. f_equal; [|lia].
      assert (E0 : start (fun _ : Z => @nil (Z * F)) n = 0); [|rewrite E0; lia].
      apply sumz_zero. intros; reflexivity. }
  rewrite Ek. clear Ek. wb. eapply wp_mono.
  { eapply (formkktmatrix_full_ok A P G _ Gt _ n m p cap pcol acol gcol);
      [exact RP|exact RG|apply RGt| |reflexivity|reflexivity|reflexivity| | | |].
    - destruct AM as [M|], At as [Mt|]; try contradiction.
      + split; [apply HA|exact HAt].
      + split; apply HA.
    - cbn. rewrite zlen_malloc; lia.
    - cbn. rewrite zlen_malloc; lia.
    - cbn. rewrite zlen_malloc; lia.
    - apply start_kkt_total; auto; try lia. apply (rp_row _ _ _ _ RG). }
  intros K HK. set (K0c := kkt_col A n p pcol acol gcol (minus_one A)) in *.
  wb. replace (m + n + p) with (n + p + m) by lia. eapply wp_mono; [eapply setup_perm_ok; [exact HK|exact HPm]|].
  intros [Pm r] [Pf [Qf [Hperm [HvP HPmut]]]]. cbn [fst snd] in *.
  assert (Lvp : zlen (match AM with Some _ => malloc F p | None => [] end) = p).
  { destruct AM; [apply zlen_malloc; auto|]. destruct HA as [-> _]. reflexivity. }
  match goal with |- wp (bind (kkt_initialize A ?q) _) _ => set (q0 := q) end.
  set (B0 := mkProb A n m p pcol acol gcol fc fb fh sd Pf Qf (fun _ => -1)).
  wb. eapply wp_mono.
  { eapply (kkt_initialize_ok q0 B0 cap); auto; try (unfold q0, B0, pN; cbn; try rewrite !zlen_malloc; try lia; auto; fail).
    - intros Hp0. destruct AM; [|destruct HA as [-> _]; cbn in Hp0; lia].
      destruct HA as [_ [_ [bb [-> Hv]]]]. exists bb. auto. }
  intros [ok q] [Eok [k [delta [x [y [s [z [par Hq]]]]]]]]. cbn [fst snd] in Eok. subst ok.
  cbv zeta in Hq. change (pn B0) with n in Hq. change (pm B0) with m in Hq. change (pp B0) with p in Hq.
  change (pP B0) with pcol in Hq. change (pA B0) with acol in Hq. change (pG B0) with gcol in Hq.
  change (pc B0) with fc in Hq. change (pb B0) with fb in Hq. change (ph B0) with fh in Hq. change (psd B0) with sd in Hq.
  change (pPf B0) with Pf in Hq. change (pQf B0) with Qf in Hq.
  change (pN B0) with (n + p + m) in Hq. change (K0 A B0) with K0c in Hq.
  set (B := mkProb A n m p pcol acol gcol fc fb fh sd Pf Qf par) in *.
  destruct Hq as [Eq [HF [HS [Emat [EP [Lb [Ld [Hx [Hy [Hs Hz]]]]]]]]]].
  cbn [snd] in Eq. wok. exists Pf, Qf, par, r. fold B.
  assert (Emat' : k_mat k = K) by (rewrite Emat; reflexivity).
  assert (EP' : k_P k = Pm) by (rewrite EP; reflexivity).
  assert (HNpos : 0 <= n + m + p) by lia.
  split; [|rewrite Eq; cbn; rewrite EP', Emat'; do 9 (split; [auto|]); destruct Permut; auto].
  split; cbn [sn_pt sn_o sn_st]; try (rewrite Eq; reflexivity).
  - rewrite Eq. split; cbn; try rewrite !zlen_malloc; try lia; auto; try (unfold pN; cbn; lia).
    + intros Hp0. destruct AM as [M|]; [|destruct HA as [-> _]; lia].
      destruct HA as [_ [RM [bb [-> Hv]]]]. exists M, bb. auto.
    + apply (b_pos_of n m p pcol acol gcol); auto.
    + exists cap, (fun _ => None). split.
      * rewrite Emat'. eapply KktRep_ovl_ext; [exact HK|]. intros j Hj. symmetry. apply ovl_l_none. auto.
      * discriminate.
  - rewrite Eq. split; cbn; auto.
Qed.

(** ** The two entry points *)

(** The equality constraints the caller passes: used exactly when p is nonzero and no pointer is NULL. *)
Definition eq_given (p : Z) (Ajc Air : option (arr Z)) (Apr b : option (arr F))
  : option (arr Z * arr Z * arr F * arr F) :=
  match Apr, Ajc, Air, b with
  | Some apr, Some ajc, Some air, Some bb => if p =? 0 then None else Some (ajc, air, apr, bb)
  | _, _, _, _ => None
  end.

(** The number of equality constraints of the problem. *)
Definition eff_p {T} (p : Z) (e : option T) : Z := match e with Some _ => p | None => 0 end.

(** The caller's arrays describe the problem (pcol, acol, gcol, fc, fb, fh). *)
Record UserData (n m p : Z) (Pjc Pir : arr Z) (Ppr : arr F) (eqs : option (arr Z * arr Z * arr F * arr F))
    (Gjc Gir : arr Z) (Gpr : arr F) (c h : arr F)
    (pcol acol gcol : cols F) (fc fb fh : Z -> F) : Prop := mkUserData {
  ud_n : 0 <= n;
  ud_m : 1 <= m;
  ud_P : Csc Pjc Pir Ppr n pcol; ud_Pr : rows_in n n pcol;
  ud_G : Csc Gjc Gir Gpr n gcol; ud_Gr : rows_in m n gcol;
  ud_A : match eqs with
         | Some (ajc, air, apr, bb) => 0 <= p /\ Csc ajc air apr n acol /\ rows_in p n acol /\ vec bb p fb
         | None => acol = (fun _ => [])
         end;
  ud_c : vec c n fc;
  ud_h : vec h m fh;
  ud_nz : 1 <= start pcol n + start acol n + start gcol n
}.

(** What the handle holds after a setup. *)
Definition SetupPost (n m p : Z) (pcol acol gcol : cols F) (fc fb fh : Z -> F) (sd : F)
    (Permut : option (arr Z)) (q : qp F) : Prop :=
  exists Pf Qf par r,
     let B := mkProb A n m p pcol acol gcol fc fb fh sd Pf Qf par in
     At A B q (mkSnap A (initF B) (default_settings A) ((initial_stats A) <| AMD_RESULT := r |>)) /\
     isperm (n + p + m) Pf Qf /\ vec (k_P (q_kkt q)) (n + p + m) Pf /\
     KktRep (k_mat (q_kkt q)) (n + p + m) (start pcol n + 2 * start gcol n + m + 2 * start acol n) (K0 A B) /\
     match Permut with Some Pm => k_P (q_kkt q) = Pm /\ r = -3 | None => True end.

Theorem QP_SETUP_ok amd n m p Pjc Pir Ppr Ajc Air Apr Gjc Gir Gpr c h b sd Permut pcol acol gcol fc fb fh :
  div_ok A ->
  UserData n m p Pjc Pir Ppr (eq_given p Ajc Air Apr b) Gjc Gir Gpr c h pcol acol gcol fc fb fh ->
  perm_ok amd (n + eff_p p (eq_given p Ajc Air Apr b) + m) (start pcol n + 2 * start gcol n + m + 2 * start acol n) (n + m + p) Permut ->
  wp (QP_SETUP A amd n m p Pjc Pir Ppr Ajc Air Apr Gjc Gir Gpr c h b sd Permut) (fun q =>
     SetupPost n m (eff_p p (eq_given p Ajc Air Apr b)) pcol acol gcol fc fb fh sd Permut q /\
     q_P q = mkSmat Pjc Pir Ppr n n (start pcol n) /\ q_G q = mkSmat Gjc Gir Gpr n m (start gcol n) /\
     q_c q = c /\ q_h q = h /\
     match eq_given p Ajc Air Apr b with
     | Some (ajc, air, apr, bb) => q_A q = Some (mkSmat ajc air apr n p (start acol n)) /\ q_b q = Some bb
     | None => q_A q = None /\ q_b q = None
     end).
Proof.
  intros Hdiv [Hn Hm HP HPr HG HGr HA Hc Hh Hnz] Hperm. unfold QP_SETUP. wb.
  apply (wp_mono _ (fun AM =>
     match eq_given p Ajc Air Apr b with
     | Some (ajc, air, apr, bb) => p <> 0 /\ b = Some bb /\ AM = Some (mkSmat ajc air apr n p (start acol n))
     | None => AM = None end)).
  { unfold eq_given in *. destruct Apr as [apr|]; [|wok; auto]. destruct Ajc as [ajc|]; [|wok; auto].
    destruct Air as [air|]; [|wok; auto]. destruct b as [bb|]; [|wok; auto].
    destruct (Z.eqb_spec p 0) as [E|E]; cbn [negb]; [wok; auto|].
    destruct HA as [Hp [HA _]]. wb. eapply wp_rd; [apply (csc_jc _ _ _ _ _ HA); lia|]. wok. auto. }
  intros AM HAM. wb. eapply wp_rd; [apply (csc_jc _ _ _ _ _ HP); lia|].
  wb. eapply wp_rd; [apply (csc_jc _ _ _ _ _ HG); lia|].
  set (eqs := eq_given p Ajc Air Apr b) in *.
  eapply wp_mono.
  { eapply (setup_core_ok amd n m (eff_p p eqs) p _ _ _ _ _ _ sd Permut pcol acol gcol fc fb fh); auto.
    - split; auto.
      + apply setup_Repr; auto.
      + apply setup_Repr; auto; lia.
      + destruct eqs as [[[[ajc air] apr] bb]|].
        * destruct HAM as [Hp0 [-> ->]]. destruct HA as [Hp [HA1 [HA2 HA3]]]. cbn [eff_p].
          split; [exact Hp0|]. split; [apply setup_Repr; auto|]. eauto.
        * subst AM. cbn [eff_p]. auto.
    - destruct eqs as [[[[ajc air] apr] bb]|]; [reflexivity|]. congruence. }
  intros q [Pf [Qf [par [r [H1 [H2 [H3 [HK [H4 [H5 [H6 [H7 [H8 [H9 H10]]]]]]]]]]]]]].
  split; [exists Pf, Qf, par, r; auto|].
  rewrite H4, H5, H6, H7, H8, H9. repeat (split; [reflexivity|]).
  destruct eqs as [[[[ajc air] apr] bb]|].
  - destruct HAM as [_ [-> ->]]. auto.
  - subst AM. auto.
Qed.

(** Dense input: the arrays hold the matrices d in the given layout. *)
Definition dense_at (ordering m n : Z) (a : arr F) (d : Z -> Z -> F) : Prop :=
  forall i j, 0 <= i < m -> 0 <= j < n ->
    rd a (if ordering =? COLUMN_MAJOR_ORDERING then j * m + i else i * n + j) = Ok (d i j).

Lemma dense_conv_ok ordering m n a d : 0 <= m -> 0 <= n -> dense_at ordering m n a d ->
  wp (dense_conv A ordering m n a) (fun M => ReprX M m n (dense_col A m d)).
Proof.
  intros Hm Hn Hd. unfold dense_conv, dense_at in *. destruct (ordering =? COLUMN_MAJOR_ORDERING).
  - apply densetosparse_ok; auto.
  - apply densetosparse_ROWMAJOR_ok; auto.
Qed.

Definition eq_given_dense (p : Z) (Apr b : option (arr F)) : option (arr F * arr F) :=
  match Apr, b with
  | Some apr, Some bb => if p =? 0 then None else Some (apr, bb)
  | _, _ => None
  end.

Record DenseData (ordering n m p : Z) (Ppr : arr F) (eqs : option (arr F * arr F)) (Gpr : arr F) (c h : arr F)
    (dP dA dG : Z -> Z -> F) (fc fb fh : Z -> F) : Prop := mkDenseData {
  dd_n : 0 <= n;
  dd_m : 1 <= m;
  dd_P : dense_at ordering n n Ppr dP;
  dd_G : dense_at ordering m n Gpr dG;
  dd_A : match eqs with
         | Some (apr, bb) => 0 <= p /\ dense_at ordering p n apr dA /\ vec bb p fb
         | None => True
         end;
  dd_c : vec c n fc;
  dd_h : vec h m fh;
  dd_nz : 1 <= start (dense_col A n dP) n + start (dense_col A m dG) n +
               match eqs with Some _ => start (dense_col A p dA) n | None => 0 end
}.

Definition acol_dense (p : Z) (dA : Z -> Z -> F) (eqs : option (arr F * arr F)) : cols F :=
  match eqs with Some _ => dense_col A p dA | None => fun _ => [] end.

Theorem QP_SETUP_dense_ok amd n m p Ppr Apr Gpr c h b Permut ordering dP dA dG fc fb fh :
  div_ok A ->
  let eqs := eq_given_dense p Apr b in
  DenseData ordering n m p Ppr eqs Gpr c h dP dA dG fc fb fh ->
  perm_ok amd (n + eff_p p eqs + m) (start (dense_col A n dP) n + 2 * start (dense_col A m dG) n + m + 2 * start (acol_dense p dA eqs) n)
    (n + m + p) Permut ->
  wp (QP_SETUP_dense A amd n m p Ppr Apr Gpr c h b Permut ordering) (fun q =>
     SetupPost n m (eff_p p eqs) (dense_col A n dP) (acol_dense p dA eqs) (dense_col A m dG) fc fb fh zero Permut q /\
     ReprX (q_P q) n n (dense_col A n dP) /\ ReprX (q_G q) m n (dense_col A m dG) /\ q_c q = c /\ q_h q = h /\
     match eqs with
     | Some (apr, bb) => exists M, q_A q = Some M /\ ReprX M p n (dense_col A p dA) /\ q_b q = Some bb
     | None => q_A q = None /\ q_b q = None
     end).
Proof.
  intros Hdiv eqs [Hn Hm HP HG HA Hc Hh Hnz] Hperm. unfold QP_SETUP_dense. wb.
  apply (wp_mono _ (fun AM =>
     match eqs with
     | Some (apr, bb) => p <> 0 /\ b = Some bb /\ exists M, AM = Some M /\ ReprX M p n (dense_col A p dA)
     | None => AM = None end)).
  { unfold eqs, eq_given_dense in *. destruct Apr as [apr|]; [|wok; auto]. destruct b as [bb|]; [|wok; auto].
    destruct (Z.eqb_spec p 0) as [E|E]; cbn [negb]; [wok; auto|].
    destruct HA as [Hp [HA _]]. wb. eapply wp_mono; [apply (dense_conv_ok ordering p n apr dA); auto|].
    intros M RM. wok. eauto. }
  intros AM HAM. wb. eapply wp_mono; [apply (dense_conv_ok ordering n n Ppr dP); auto|]. intros MP RP.
  wb. eapply wp_mono; [apply (dense_conv_ok ordering m n Gpr dG); auto; lia|]. intros MG RG.
  eapply wp_mono.
  { eapply (setup_core_ok amd n m (eff_p p eqs) p MP MG AM c h _ zero Permut (dense_col A n dP)
       (acol_dense p dA eqs) (dense_col A m dG) fc fb fh); auto.
    - split; auto.
      + apply RP.
      + apply RG.
      + destruct eqs as [[apr bb]|].
        * destruct HAM as [Hp0 [-> [M [-> RM]]]]. destruct HA as [Hp [HA1 HA2]]. cbn [eff_p acol_dense].
          split; [exact Hp0|]. split; [apply RM|]. eauto.
        * subst AM. cbn [eff_p]. auto.
      + destruct eqs; cbn [acol_dense]; try lia.
        assert (E0 : start (fun _ : Z => @nil (Z * F)) n = 0); [|rewrite E0; lia].
        apply sumz_zero. intros; reflexivity.
    - destruct eqs as [[apr bb]|]; [reflexivity|]. congruence. }
  intros q [Pf [Qf [par [r [H1 [H2 [H3 [HK [H4 [H5 [H6 [H7 [H8 [H9 H10]]]]]]]]]]]]]].
  split; [exists Pf, Qf, par, r; auto|].
  rewrite H4, H5, H6, H7, H8, H9. do 4 (split; [auto|]).
  destruct eqs as [[apr bb]|].
  - destruct HAM as [_ [-> [M [-> RM]]]]. exists M. auto.
  - subst AM. auto.
Qed.

End Setup.
