(** The end of AMD_2 (src/amd_2.c:1634-1841) turns the assembly tree into a permutation. *)
From Coq Require Import ZArith List Lia Bool.
From RecordUpdate Require Import RecordUpdate.
From Verif Require Import Res Lists MAmd Spec AmdBase AmdView AmdLists AmdGc AmdInv AmdRestore AmdPivot AmdTree AmdKids AmdPostTree AmdPos.
Import ListNotations.
Open Scope Z_scope.
Open Scope res_scope.

Section Post.
Variables (n iwlen : Z).
Hypothesis Hn : 0 <= n.
Notation Vw := (Vw n iwlen).

Lemma flip_pe_ok s v (Q : ast -> Prop) : Vw s v ->
  (forall s' p, Vw s' (uPe v p) -> (forall i, 0 <= i < n -> p i = FLIP (vPe v i)) -> Q s') ->
  wp (for_ 0 n (fun i s => x <- rd (aPe s) i ;; sPe s i (FLIP x)) s) Q.
Proof.
  intros Vs HQ.
  apply (wp_for_le (fun i s => exists p, Vw s (uPe v p) /\ forall j, 0 <= j < n -> p j = if j <? i then FLIP (vPe v j) else vPe v j)); auto.
  - exists (vPe v). split; [destruct v; exact Vs|]. intros j Hj. destruct (Z.ltb_spec j 0); [lia|auto].
  - intros i s' Hi [p [V' H]]. ard. awl s2 V2. eexists. split; [exact V2|]. intros j Hj. unfold fup. destruct (Z.eqb_spec j i) as [->|Ne].
    + rewrite H by auto. rewrite Z.ltb_irrefl. destruct (Z.ltb_spec i (i + 1)); [auto|lia].
    + rewrite H by auto. destruct (Z.ltb_spec j i); destruct (Z.ltb_spec j (i + 1)); auto; lia.
  - intros s' [p [V' H]]. apply (HQ s' p V'). intros i Hi. rewrite H by auto. destruct (Z.ltb_spec i n); [auto|lia].
Qed.

Lemma flip_elen_ok s v (Q : ast -> Prop) : Vw s v ->
  (forall s' p, Vw s' (uElen v p) -> (forall i, 0 <= i < n -> p i = FLIP (vElen v i)) -> Q s') ->
  wp (for_ 0 n (fun i s => x <- rd (aElen s) i ;; sElen s i (FLIP x)) s) Q.
Proof.
  intros Vs HQ.
  apply (wp_for_le (fun i s => exists p, Vw s (uElen v p) /\ forall j, 0 <= j < n -> p j = if j <? i then FLIP (vElen v j) else vElen v j)); auto.
  - exists (vElen v). split; [destruct v; exact Vs|]. intros j Hj. destruct (Z.ltb_spec j 0); [lia|auto].
  - intros i s' Hi [p [V' H]]. ard. awl s2 V2. eexists. split; [exact V2|]. intros j Hj. unfold fup. destruct (Z.eqb_spec j i) as [->|Ne].
    + rewrite H by auto. rewrite Z.ltb_irrefl. destruct (Z.ltb_spec i (i + 1)); [auto|lia].
    + rewrite H by auto. destruct (Z.ltb_spec j i); destruct (Z.ltb_spec j (i + 1)); auto; lia.
  - intros s' [p [V' H]]. apply (HQ s' p V'). intros i Hi. rewrite H by auto. destruct (Z.ltb_spec i n); [auto|lia].
Qed.

Section Out.
Variables (par nv rep dep order : Z -> Z) (m : Z).
Hypothesis F : FOREST n par nv rep dep.
Hypothesis N : NUM n nv order m.
Notation mrg := (mrg par nv).
Notation pos := (pos n par nv rep order).
Notation bs := (bs n nv order).
Notation base := (base n nv order).
Notation tot := (tot n nv).
Notation mc := (mc par nv rep).
Notation dc := (dc par nv).

(** The state during the output phase. *)
Definition OUT (s : ast) (v : vw) : Prop := Vw s v /\ vNv v = nv /\ vPe v = fpar par nv rep /\ vW v = order.

Lemma clear_ok s v (Q : ast -> Prop) : OUT s v ->
  (forall s' v', OUT s' v' -> (forall k, 0 <= k < n -> vHead v' k = -1 /\ vNext v' k = -1) -> Q s') ->
  wp (for_ 0 n (fun k s => s <- sHead s k EMPTY ;; sNext s k EMPTY) s) Q.
Proof.
  intros H HQ. apply (wp_for_le (fun i s => exists v', OUT s v' /\ forall k, 0 <= k < i -> vHead v' k = -1 /\ vNext v' k = -1)); auto.
  - exists v. split; auto. intros; lia.
  - clear s v H. intros i s Hi [v [[Vs [A [B D]]] H]]. aw s1 V1. awl s2 V2. eexists. split; [split; [exact V2|vs; auto]|]. vs. intros k Hk. unfold fup.
    destruct (Z.eqb_spec k i); [split; reflexivity|]. apply H. lia.
  - intros s' [v' [H1 H2]]. apply (HQ s' v'); auto.
Qed.

Lemma heads_ok s v (Q : ast -> Prop) : OUT s v -> (forall k, 0 <= k < n -> vHead v k = -1 /\ vNext v k = -1) ->
  (forall s' v', OUT s' v' -> (forall x, 0 <= x < n -> 0 < nv x -> vHead v' (order x) = x) -> (forall k, m <= k < n -> vHead v' k = -1) -> Q s') ->
  wp (for_ 0 n (fun e s => k <- rd (aW s) e ;; if negb (k =? EMPTY) then sHead s k e else Ok s) s) Q.
Proof.
  intros H HE HQ. pose proof (n_m _ _ _ _ N).
  apply (wp_for_le (fun i s => exists v', OUT s v' /\ (forall x, 0 <= x < i -> 0 < nv x -> vHead v' (order x) = x) /\ (forall k, m <= k < n -> vHead v' k = -1))); auto.
  - exists v. split; auto. split; [intros; lia|]. intros k Hk. apply HE. lia.
  - clear s v H HE. intros i s Hi [v [[Vs [A [B D]]] [H1 H2]]]. ard. rewrite D, EMPTY_val. destruct (Z.eqb_spec (order i) (-1)) as [E|E]; simpl negb; cbv iota.
    + wok. exists v. split; [split; auto|]. split; auto. intros x Hx Nx. destruct (Z.eq_dec x i) as [->|]; [|apply H1; auto; lia].
      pose proof (n_in _ _ _ _ N i Hi Nx). lia.
    + assert (Ni : 0 < nv i) by (destruct (Z_lt_dec 0 (nv i)); auto; exfalso; apply E; apply N; auto). pose proof (n_in _ _ _ _ N i Hi Ni).
      awl s1 V1. eexists. split; [split; [exact V1|vs; auto]|]. vs. split.
      * intros x Hx Nx. destruct (Z.eq_dec x i) as [->|Ne]; [apply fup_eq|]. rewrite fup_ne; [apply H1; auto; lia|]. intros X. apply Ne. apply N; auto. lia.
      * intros k Hk. rewrite fup_ne by lia. apply H2; auto.
  - intros s' [v' [H1 [H2 H3]]]. apply (HQ s' v'); auto.
Qed.

Lemma bases_ok s v (Q : bool * Z * ast -> Prop) : OUT s v -> (forall x, 0 <= x < n -> 0 < nv x -> vHead v (order x) = x) -> (forall k, m <= k < n -> vHead v k = -1) ->
  (forall st s' v', OUT s' v' -> (forall x, 0 <= x < n -> 0 < nv x -> vNext v' x = bs x) -> Q (st, tot, s')) ->
  wp (for_ 0 n (fun k '(stop, nel, s) =>
    if stop : bool then Ok (stop, nel, s)
    else
      e <- rd (aHead s) k ;;
      if e =? EMPTY then Ok (true, nel, s)
      else s <- sNext s e nel ;; nv <- rd (aNv s) e ;; Ok (false, nel + nv, s)) (false, 0, s)) Q.
Proof.
  intros H H1 H2 HQ. pose proof (n_m _ _ _ _ N) as Hm.
  apply (wp_for_le (fun k '(st, nl, s) => exists v', OUT s v' /\ vHead v' = vHead v /\
     (if st : bool then m <= k /\ nl = tot /\ (forall x, 0 <= x < n -> 0 < nv x -> vNext v' x = bs x)
      else k <= m /\ nl = base k /\ (forall x, 0 <= x < n -> 0 < nv x -> order x < k -> vNext v' x = bs x)))); auto.
  - exists v. split; auto. split; auto. split; [lia|]. rewrite (base_0 n par nv rep dep order m); auto. split; auto. intros x Hx Nx L. pose proof (n_in _ _ _ _ N x Hx Nx). lia.
  - intros k [[st nl] s'] Hk [v' [[Vs [A [B D]]] [Eh Hs]]]. destruct st.
    { wok. exists v'. split; [split; auto|]. split; auto. destruct Hs as [X Y]. split; [lia|auto]. }
    destruct Hs as [Hk2 [-> Hs]]. ard. rewrite Eh, EMPTY_val. destruct (Z.eq_dec k m) as [->|Nk].
    + rewrite H2 by lia. simpl (-1 =? -1). cbv iota. wok. exists v'. split; [split; auto|]. split; auto. split; [lia|]. split; [apply (base_m n par nv rep dep); auto|].
      intros x Hx Nx. apply Hs; auto. apply N; auto.
    + destruct (n_sur _ _ _ _ N k ltac:(lia)) as [e [He [Ne Oe]]]. rewrite <- Oe, H1 by auto. destruct (Z.eqb_spec e (-1)); [lia|].
      aw s2 V2. ard. rewrite A. wok. eexists. split; [split; [exact V2|vs; auto]|]. vs. split; auto. split; [lia|].
      split; [rewrite (base_step n par nv rep dep order m); auto|]. intros x Hx Nx L. destruct (Z.eq_dec x e) as [->|Nx']; [rewrite fup_eq; reflexivity|].
      rewrite fup_ne by auto. apply Hs; auto. assert (order x <> order e) by (intros X; apply Nx'; apply N; auto). lia.
  - intros [[st nl] s'] [v' [Ho [_ Hs]]]. destruct st.
    + destruct Hs as [_ [-> Hs]]. apply (HQ true s' v'); auto.
    + destruct Hs as [Hk [-> Hs]]. assert (Em : m = n) by lia. replace (base n) with tot by (rewrite <- (base_m n par nv rep dep order m F N); rewrite Em; auto).
      apply (HQ false s' v'); auto. intros x Hx Nx. apply Hs; auto. pose proof (n_in _ _ _ _ N x Hx Nx). lia.
Qed.

Lemma numbers_ok s v (Q : Z * ast -> Prop) : OUT s v -> (forall x, 0 <= x < n -> 0 < nv x -> vNext v x = bs x) ->
  (forall z s' v', OUT s' v' -> (forall x, 0 <= x < n -> vNext v' x = pos x) -> Q (z, s')) ->
  wp (for_ 0 n (fun i '(nel, s) =>
    nv <- rd (aNv s) i ;;
    if nv =? 0 then
      e <- rd (aPe s) i ;;
      if negb (e =? EMPTY) then
        x <- rd (aNext s) e ;; s <- sNext s i x ;; y <- rd (aNext s) e ;; s <- sNext s e (y + 1) ;; Ok (nel, s)
      else s <- sNext s i nel ;; Ok (nel + 1, s)
    else Ok (nel, s)) (tot, s)) Q.
Proof.
  intros H H1 HQ.
  apply (wp_for_le (fun i '(nl, s) => exists v', OUT s v' /\ nl = tot + dc i /\
     (forall e, 0 <= e < n -> 0 < nv e -> vNext v' e = bs e + mc e i) /\ (forall x, 0 <= x < i -> nv x = 0 -> vNext v' x = pos x))); auto.
  - exists v. split; auto. split; [unfold AmdPos.dc, cnt0; rewrite zr_nil by lia; simpl; lia|]. split; [|intros; lia].
    intros e He Ne. rewrite H1 by auto. unfold AmdPos.mc, cnt0. rewrite zr_nil by lia. simpl; lia.
  - clear s v H H1. intros i [nl s] Hi [v [[Vs [A [B D]]] [-> [H1 H2]]]].
    ard. rewrite A. destruct (three n par nv rep dep F i Hi) as [[Ni [Mi [Di Ei]]]|[[Zi [Mi [Di Ni]]]|[Zi [Mi [Di Ei]]]]].
    + destruct (Z.eqb_spec (nv i) 0); [lia|]. wok. exists v. split; [split; auto|].
      split; [unfold AmdPos.dc; rewrite cnt0_step, Di by lia; lia|]. split.
      * intros e He Ne. rewrite H1 by auto. unfold AmdPos.mc. rewrite cnt0_step, Mi by lia. simpl. lia.
      * intros x Hx Zx. destruct (Z.eq_dec x i) as [->|]; [lia|]. apply H2; auto. lia.
    + rewrite Zi, Z.eqb_refl. pose proof (f_rng _ _ _ _ _ F i Hi) as Re.
      assert (Ne : rep i <> i) by (intros X; rewrite X in Ni; lia).
      ard. rewrite B. unfold fpar. rewrite Mi, EMPTY_val. destruct (Z.eqb_spec (rep i) (-1)); [lia|]. simpl negb. cbv iota.
      ard. aw s1 V1. ard. aw s2 V2. wok. rewrite (fup_ne _ _ _ _ Ne), (H1 _ Re Ni) in V2.
      eexists. split; [split; [exact V2|vs; auto]|]. vs. split; [unfold AmdPos.dc; rewrite cnt0_step, Di by lia; lia|]. split.
      * intros e He Pe. unfold AmdPos.mc. rewrite cnt0_step, Mi by lia. simpl andb. destruct (Z.eqb_spec (rep i) e) as [<-|Nee].
        -- rewrite fup_eq. unfold AmdPos.mc. lia.
        -- rewrite fup_ne by auto. rewrite fup_ne by (intros ->; lia). rewrite H1 by auto. unfold AmdPos.mc. lia.
      * intros x Hx Zx. rewrite fup_ne by (intros ->; lia). destruct (Z.eq_dec x i) as [->|]; [|rewrite fup_ne by auto; apply H2; auto; lia].
        rewrite fup_eq. unfold AmdPos.pos. rewrite Zi, Mi. reflexivity.
    + rewrite Zi, Z.eqb_refl. assert (Pi : par i = -1). { unfold dn in Di. apply andb_true_iff in Di. destruct Di as [_ Di]. apply Z.eqb_eq in Di. auto. }
      ard. rewrite B. unfold fpar. rewrite Mi, Pi, EMPTY_val. simpl (-1 =? -1). simpl negb. cbv iota.
      aw s1 V1. wok. eexists. split; [split; [exact V1|vs; auto]|]. vs. split; [unfold AmdPos.dc; rewrite cnt0_step, Di by lia; lia|]. split.
      * intros e He Pe. rewrite fup_ne by (intros ->; lia). unfold AmdPos.mc. rewrite cnt0_step, Mi by lia. simpl. rewrite H1 by auto. unfold AmdPos.mc. lia.
      * intros x Hx Zx. destruct (Z.eq_dec x i) as [->|]; [|rewrite fup_ne by auto; apply H2; auto; lia].
        rewrite fup_eq. unfold AmdPos.pos. rewrite Zi, Mi. reflexivity.
  - intros [nl s'] [v' [Ho [_ [H2 H3]]]]. apply (HQ nl s' v'); auto. intros x Hx. pose proof (f_nv _ _ _ _ _ F x Hx).
    destruct (Z.eq_dec (nv x) 0) as [Z0|Z0]; [apply H3; auto|]. rewrite H2 by lia. rewrite (mc_full n par nv rep dep) by (auto; lia).
    unfold AmdPos.pos. destruct (Z.ltb_spec 0 (nv x)); lia.
Qed.

Lemma invert_ok s v (Q : ast -> Prop) : OUT s v -> (forall x, 0 <= x < n -> vNext v x = pos x) ->
  (forall s', zlen (aLast s') = n -> permutation_array (aLast s') n -> Q s') ->
  wp (for_ 0 n (fun i s => k <- rd (aNext s) i ;; sLast s k i) s) Q.
Proof.
  intros H H1 HQ. pose proof (pos_rng n par nv rep dep order m Hn F N) as R. pose proof (pos_inj n par nv rep dep order m Hn F N) as I.
  apply (wp_for_le (fun i s => exists v', Vw s v' /\ vNext v' = vNext v /\ forall j, 0 <= j < i -> vLast v' (pos j) = j)); auto.
  - exists v. split; [apply H|]. split; auto. intros; lia.
  - intros i s' Hi [v' [Vs [E HL]]]. ard. rewrite E, H1 by auto. pose proof (R i Hi). awl s1 V1. eexists. split; [exact V1|]. vs. split; auto.
    intros j Hj. destruct (Z.eq_dec j i) as [->|Ne]; [apply fup_eq|]. rewrite fup_ne; [apply HL; lia|]. intros X. apply Ne. apply I; auto. lia.
  - intros s' [v' [Vs [E HL]]]. destruct (V_Last _ _ _ _ Vs) as [L RD]. apply HQ; auto. constructor.
    + intros k Hk. destruct (inj_sur n pos R I k Hk) as [j [Hj <-]]. exists j. split; auto. rewrite RD by auto. rewrite HL; auto.
    + intros k k' a Hk Hk' A A'. destruct (inj_sur n pos R I k Hk) as [j [Hj <-]]. destruct (inj_sur n pos R I k' Hk') as [j' [Hj' <-]].
      rewrite RD in A, A' by auto. rewrite HL in A, A' by auto. congruence.
Qed.
End Out.

Lemma post_phase_ok s v rep dep (Q : ast -> Prop) : Vw s v -> FOREST n (fun i => FLIP (vPe v i)) (vNv v) rep dep ->
  (forall i, 0 <= i < n -> 0 < vNv v i -> 0 <= FLIP (vElen v i)) ->
  (forall s', zlen (aLast s') = n -> permutation_array (aLast s') n -> Q s') ->
  wp (post_phase n s) Q.
Proof.
  intros Vs F Fe HQ. unfold post_phase. set (par := fun i => FLIP (vPe v i)) in *.
  wb. apply (flip_pe_ok s v); auto. intros s1 p V1 Hp. wb. apply (flip_elen_ok s1 _ _ V1). vs. intros s2 fs V2 Hf. vs.
  wb. apply (compress_ok n par (vNv v) rep dep F (aNv s2) (aPe s2)); auto.
  { apply (V_Nv _ _ _ _ V2). }
  { destruct (V_Pe _ _ _ _ V2) as [L R]. split; auto. intros i Hi. rewrite R by auto. vs. rewrite Hp; auto. }
  intros Pe VP. cbv zeta.
  change (aPe (s2 <| aPe := Pe |>)) with Pe. change (aNv (s2 <| aPe := Pe |>)) with (aNv s2). change (aElen (s2 <| aPe := Pe |>)) with (aElen s2).
  change (aW (s2 <| aPe := Pe |>)) with (aW s2). change (aHead (s2 <| aPe := Pe |>)) with (aHead s2). change (aNext (s2 <| aPe := Pe |>)) with (aNext s2).
  change (aLast (s2 <| aPe := Pe |>)) with (aLast s2).
  assert (Eel : forall j, 0 <= j < n -> 0 < vNv v j -> fpar par (vNv v) rep j = par j).
  { intros j Hj Nj. unfold fpar, mrg. destruct (Z.eqb_spec (vNv v j) 0); [lia|]. reflexivity. }
  wb. apply (AMD_postorder_ok n (fpar par (vNv v) rep) (vNv v) dep fs Pe (aNv s2) (aElen s2) (aW s2) (aHead s2) (aNext s2) (aLast s2) (vLast v)); auto.
  { intros j Hj Nj. rewrite Eel by auto. apply F; auto. }
  { intros j Hj Nj Pj. rewrite Eel in * by auto. split; [apply F; auto|apply F; auto]. }
  { intros j Hj. apply F; auto. }
  { intros x Hx Nx. rewrite Hf by auto. apply Fe; auto. }
  { apply (V_Nv _ _ _ _ V2). }
  { apply (V_Elen _ _ _ _ V2). }
  { apply (V_W _ _ _ _ V2). }
  { apply (V_Head _ _ _ _ V2). }
  { apply (V_Next _ _ _ _ V2). }
  { apply (V_Last _ _ _ _ V2). }
  intros W Hd Nx Ls order m hd nx ls VW VH VX VL N.
  set (s3 := _ <| aLast := Ls |>).
  assert (O3 : OUT par (vNv v) rep order s3 (mkVw (fpar par (vNv v) rep) (vIw v) (vLen v) (vNv v) nx ls hd fs (vDeg v) order (vhi v) (vpf v) (vnel v) (vmd v) (vwf v) (vle v) (vnd v))).
  { unfold s3. split; [|split; [|split]]; vs; auto. destruct V2. constructor; vs; auto. }
  clearbody s3. wb. apply (clear_ok par (vNv v) rep order s3 _ _ O3). intros s4 v4 O4 H4.
  wb. apply (heads_ok par (vNv v) rep order m N s4 v4 _ O4 H4). intros s5 v5 O5 H5 H5'.
  wb. apply (bases_ok par (vNv v) rep dep order m F N s5 v5 _ O5 H5 H5'). intros st s6 v6 O6 H6. cbv beta iota.
  wb. apply (numbers_ok par (vNv v) rep dep order F s6 v6 _ O6 H6). intros z s7 v7 O7 H7. cbv beta iota.
  apply (invert_ok par (vNv v) rep dep order m F N s7 v7 _ O7 H7). auto.
Qed.
End Post.
