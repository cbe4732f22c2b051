(** The lists kept in the workspace of AMD_2, and its garbage collection. *)
From Coq Require Import ZArith List Lia Bool.
From RecordUpdate Require Import RecordUpdate.
From Verif Require Import Res Lists MAmd AmdBase AmdView AmdLists.
Import ListNotations.
Open Scope Z_scope.
Open Scope res_scope.

Lemma cells_shift f g p p' l : (forall t, 0 <= t < zlen l -> f (p' + t) = g (p + t)) -> cells g p l -> cells f p' l.
Proof.
  revert p p'. induction l as [|x l IH]; intros p p' H C; [exact I|]. rewrite zlen_cons in H. pose proof (zlen_nonneg l).
  destruct C as [C1 C2]. split.
  - specialize (H 0 ltac:(lia)). rewrite !Z.add_0_r in H. congruence.
  - apply (IH (p + 1)); auto. intros t Ht. specialize (H (t + 1) ltac:(lia)).
    replace (p' + 1 + t) with (p' + (t + 1)) by lia. replace (p + 1 + t) with (p + (t + 1)) by lia. auto.
Qed.

Section Mem.
Variables (n iwlen : Z).
Notation Vw := (Vw n iwlen).

(** Every object with a nonnegative pointer owns a segment that holds its list; the segments lie below [lim]. *)
Record Mem (v : vw) (C : Z -> list Z) (lim : Z) : Prop := mkMem {
  m_len : forall i, 0 <= i < n -> 0 <= vPe v i -> vLen v i = zlen (C i);
  m_cells : forall i, 0 <= i < n -> 0 <= vPe v i -> cells (vIw v) (vPe v i) (C i);
  m_lim : forall i, 0 <= i < n -> 0 <= vPe v i -> vPe v i + vLen v i <= lim;
  m_dis : forall i j, 0 <= i < n -> 0 <= j < n -> i <> j -> 0 <= vPe v i -> 0 <= vPe v j ->
            vPe v i + vLen v i <= vPe v j \/ vPe v j + vLen v j <= vPe v i;
  m_pf : 0 <= lim <= vpf v;
  m_hi : vpf v <= vhi v;
  m_rng : forall q, 0 <= q < vpf v -> 0 <= vIw v q < n
}.

Definition live (v : vw) (i : Z) : bool := 0 <=? vPe v i.
Definition used (v : vw) : Z := sumz (fun i => if live v i then vLen v i else 0) (zr 0 n).

Lemma Mem_in v C lim i x : Mem v C lim -> 0 <= i < n -> 0 <= vPe v i -> In x (C i) -> 0 <= x < n.
Proof.
  intros M Hi Hp Hx. destruct (cells_in _ _ _ _ (m_cells _ _ _ M i Hi Hp) Hx) as [q [Hq <-]].
  apply (m_rng _ _ _ M). pose proof (m_lim _ _ _ M i Hi Hp). pose proof (m_pf _ _ _ M). rewrite (m_len _ _ _ M i Hi Hp) in *. lia.
Qed.

Section Gc.
Variables (v : vw) (C : Z -> list Z) (pme1 : Z).
Hypothesis M : Mem v C pme1.
Hypothesis Pos : forall i, 0 <= i < n -> 0 <= vPe v i -> 1 <= vLen v i.
Hypothesis Hn : 0 <= n.

Notation lv j := (0 <= j < n /\ 0 <= vPe v j).

Lemma start_inj i j : lv i -> lv j -> vPe v i = vPe v j -> i = j.
Proof.
  intros [Hi Li] [Hj Lj] E. destruct (Z.eq_dec i j); auto. exfalso.
  destruct (m_dis _ _ _ M i j Hi Hj n0 Li Lj); pose proof (Pos i Hi Li); pose proof (Pos j Hj Lj); lia.
Qed.

Lemma lv_bound i : lv i -> vPe v i + vLen v i <= pme1 /\ 1 <= vLen v i /\ vPe v i < vhi v /\ pme1 <= vhi v.
Proof.
  intros [Hi Li]. pose proof (m_lim _ _ _ M i Hi Li). pose proof (Pos i Hi Li). pose proof (m_pf _ _ _ M). pose proof (m_hi _ _ _ M). lia.
Qed.

(** After marking: the pointers hold the first entries, the first cells hold the owners. *)
Lemma gc_mark_ok s (Q : ast -> Prop) : Vw s v ->
  (forall s' f pe', Vw s' (uPe (uIw v f (vhi v)) pe') ->
     (forall j, lv j -> pe' j = vIw v (vPe v j)) -> (forall j, ~ lv j -> pe' j = vPe v j) ->
     (forall j, lv j -> f (vPe v j) = FLIP j) -> (forall q, (forall j, lv j -> vPe v j <> q) -> f q = vIw v q) -> Q s') ->
  wp (gc_mark n s) Q.
Proof.
  intros V HQ. unfold gc_mark.
  apply (wp_for_le (fun k s => exists f pe', Vw s (uPe (uIw v f (vhi v)) pe') /\
     (forall j, lv j -> j < k -> pe' j = vIw v (vPe v j)) /\ (forall j, ~ (lv j /\ j < k) -> pe' j = vPe v j) /\
     (forall j, lv j -> j < k -> f (vPe v j) = FLIP j) /\ (forall q, (forall j, lv j -> j < k -> vPe v j <> q) -> f q = vIw v q))); auto.
  - exists (vIw v), (vPe v). split; [destruct v; exact V|]. repeat split; intros; auto; lia.
  - intros k s' Hk [f [pe' [V' [A1 [A2 [A3 A4]]]]]]. ard. rewrite A2 by lia.
    destruct (Z.leb_spec 0 (vPe v k)) as [L|L].
    + destruct (lv_bound k (conj Hk L)) as [B1 [B2 [B3 B4]]]. ard.
      aw s2 V2. awl s3 V3. exists (fup f (vPe v k) (FLIP k)), (fup pe' k (f (vPe v k))). split; [exact V3|].
      assert (Ek : f (vPe v k) = vIw v (vPe v k)).
      { apply A4. intros j Lj Hj E. apply start_inj in E; auto. lia. }
      split; [|split; [|split]].
      * intros j Lj Hj. destruct (Z.eq_dec j k) as [->|Ne]; [rewrite fup_eq; auto|]. rewrite fup_ne by auto. apply A1; auto. lia.
      * intros j Nj. destruct (Z.eq_dec j k) as [->|Ne]; [exfalso; apply Nj; lia|]. rewrite fup_ne by auto. apply A2. lia.
      * intros j Lj Hj. destruct (Z.eq_dec j k) as [->|Ne]; [rewrite fup_eq; auto|]. rewrite fup_ne; [apply A3; auto; lia|].
        intros E. apply Ne. apply start_inj; auto.
      * intros q Hq. rewrite fup_ne; [apply A4; intros; apply Hq; auto; lia|]. intros ->. apply (Hq k); auto. lia.
    + wok. exists f, pe'. split; [exact V'|]. split; [|split; [|split]].
      * intros j Lj Hj. apply A1; auto. destruct (Z.eq_dec j k); [subst; lia|lia].
      * intros j Nj. apply A2. lia.
      * intros j Lj Hj. apply A3; auto. destruct (Z.eq_dec j k); [subst; lia|lia].
      * intros q Hq. apply A4. intros j Lj Hj. apply Hq; auto. lia.
  - intros s' [f [pe' [V' [A1 [A2 [A3 A4]]]]]]. apply (HQ s' f pe'); auto; intros.
    + apply A1; auto. lia.
    + apply A2. lia.
    + apply A3; auto. lia.
Qed.

Definition before (psrc : Z) : Z := sumz (fun j => if live v j && (vPe v j <? psrc) then vLen v j else 0) (zr 0 n).

(** Moving the segments down. *)
Definition moved (psrc pdst : Z) (f pe' : Z -> Z) : Prop :=
  0 <= pdst <= psrc /\ psrc <= pme1 /\ pdst = before psrc /\
  (forall j, lv j -> vPe v j + vLen v j <= psrc \/ psrc <= vPe v j) /\
  (forall j, lv j -> psrc <= vPe v j -> pe' j = vIw v (vPe v j) /\ f (vPe v j) = FLIP j) /\
  (forall j, lv j -> vPe v j < psrc -> 0 <= pe' j /\ pe' j + vLen v j <= pdst /\ cells f (pe' j) (C j)) /\
  (forall i j, lv i -> lv j -> i <> j -> vPe v i < psrc -> vPe v j < psrc ->
     pe' i + vLen v i <= pe' j \/ pe' j + vLen v j <= pe' i) /\
  (forall j, ~ lv j -> pe' j = vPe v j) /\
  (forall q, psrc <= q -> (forall j, lv j -> vPe v j <> q) -> f q = vIw v q) /\
  (forall q, 0 <= q < pdst -> 0 <= f q < n).

Lemma find_start (q : Z) : (exists j, lv j /\ vPe v j = q) \/ (forall j, lv j -> vPe v j <> q).
Proof.
  assert (H : forall k, 0 <= k -> k <= n -> (exists j, lv j /\ vPe v j = q) \/ (forall j, lv j -> j < k -> vPe v j <> q)).
  { intros k Hk. pattern k. apply (zr_ind _ 0); [| |exact Hk].
    - right. intros; lia.
    - intros c Hc IH Hcn. destruct (IH ltac:(lia)) as [IH'|IH']; clear IH; [auto|rename IH' into IH]. destruct (Z.le_gt_cases 0 (vPe v c)) as [L|L].
      + destruct (Z.eq_dec (vPe v c) q) as [E|E]; [left; exists c; split; auto; split; auto; lia|].
        right. intros j Lj Hj. destruct (Z.eq_dec j c); [subst; auto|]. apply IH; auto. lia.
      + right. intros j Lj Hj. destruct (Z.eq_dec j c); [subst; lia|]. apply IH; auto. lia. }
  destruct (H n ltac:(lia) ltac:(lia)) as [?|X]; auto. right. intros j Lj. apply X; auto. lia.
Qed.

Lemma before_step psrc j : lv j -> vPe v j = psrc -> 
  (forall i, lv i -> vPe v i + vLen v i <= psrc \/ psrc <= vPe v i) ->
  before (psrc + vLen v j) = before psrc + vLen v j.
Proof.
  intros Lj Ej Hs. unfold before. destruct Lj as [Hj Lj].
  rewrite (sumz_ext (fun i => if live v i && (vPe v i <? psrc + vLen v j) then vLen v i else 0)
    (fup (fun i => if live v i && (vPe v i <? psrc) then vLen v i else 0) j (vLen v j))).
  - rewrite sumz_fup; [|apply NoDup_zr|apply in_zr; lia].
    replace (live v j && (vPe v j <? psrc)) with false; [lia|]. symmetry. apply andb_false_intro2. apply Z.ltb_ge. lia.
  - intros i Hi. apply in_zr in Hi. unfold fup, live. destruct (Z.eqb_spec i j) as [->|Ne].
    + destruct (Z.leb_spec 0 (vPe v j)); [|lia]. destruct (Z.ltb_spec (vPe v j) (psrc + vLen v j)); simpl; auto.
      pose proof (Pos j Hj Lj). lia.
    + destruct (Z.leb_spec 0 (vPe v i)); simpl; auto. pose proof (m_dis _ _ _ M i j Hi Hj Ne H Lj). pose proof (Pos i Hi H). pose proof (Pos j Hj Lj).
      destruct (Z.ltb_spec (vPe v i) (psrc + vLen v j)); destruct (Z.ltb_spec (vPe v i) psrc); auto; lia.
Qed.

Lemma before_skip psrc : (forall j, lv j -> vPe v j <> psrc) -> before (psrc + 1) = before psrc.
Proof.
  intros H. apply sumz_ext. intros i Hi. apply in_zr in Hi. unfold live. destruct (Z.leb_spec 0 (vPe v i)); simpl; auto.
  specialize (H i (conj Hi H0)). destruct (Z.ltb_spec (vPe v i) (psrc + 1)); destruct (Z.ltb_spec (vPe v i) psrc); auto; lia.
Qed.

Lemma gc_move_ok s f0 pe0 (Q : Z * ast -> Prop) : Vw s (uPe (uIw v f0 (vhi v)) pe0) -> moved 0 0 f0 pe0 ->
  (forall s' f pe' pdst, Vw s' (uPe (uIw v f (vhi v)) pe') -> moved pme1 pdst f pe' ->
     (forall q, pme1 <= q -> f q = f0 q) -> Q (pdst, s')) ->
  wp (gc_move (pme1 - 1) s) Q.
Proof.
  intros V0 H0 HQ. pose proof (m_pf _ _ _ M) as Hpf. pose proof (m_hi _ _ _ M) as Hhi.
  unfold gc_move. wb.
  apply (wp_while (fun '(psrc, pdst, s) => exists f pe', Vw s (uPe (uIw v f (vhi v)) pe') /\ moved psrc pdst f pe' /\
     (forall q, pme1 <= q -> f q = f0 q)) (fun '(psrc, pdst, s) => pme1 - psrc)).
  - exists f0, pe0. auto.
  - unfold fuel. lia.
  - clear s V0. intros [[psrc pdst] s] [f [pe' [V [HM Hf]]]].
    destruct HM as [B0 [B1 [B2 [B3 [B4 [B5 [B6 [B7 [B8 B9]]]]]]]]]. split; [lia|]. wok.
    destruct (Z.leb_spec psrc (pme1 - 1)) as [L|L].
    2: { wok. apply (HQ s f pe' pdst); auto. replace pme1 with psrc by lia. unfold moved. do 9 (split; [auto; lia|]). auto. }
    ard. destruct (find_start psrc) as [[j [Lj Ej]]|Ns].
    + destruct (B4 j Lj ltac:(lia)) as [P1 P2]. rewrite <- Ej, P2, FLIP_FLIP. destruct (Z.leb_spec 0 j) as [_|X]; [|lia].
      destruct (lv_bound j Lj) as [L1 [L2 [L3 L4]]]. rewrite Ej in P1, P2, L1, L3 |- *.
      ard. rewrite P1. aw s1 V1. aw s2 V2. ard.
      assert (EC : zlen (C j) = vLen v j) by (symmetry; apply (m_len _ _ _ M); tauto).
      pose proof (m_cells _ _ _ M j ltac:(tauto) ltac:(tauto)) as Cj. rewrite Ej in Cj.
      assert (In_j : forall q, psrc < q < psrc + vLen v j -> f q = vIw v q).
      { intros q Hq. apply B8; [lia|]. intros i Li Ei. destruct (Z.eq_dec i j) as [->|Ne]; [lia|].
        pose proof (m_dis _ _ _ M i j ltac:(tauto) ltac:(tauto) Ne ltac:(tauto) ltac:(tauto)). pose proof (Pos i ltac:(tauto) ltac:(tauto)). lia. }
      apply (wp_for_le (fun k '(ps, pd, s) => ps = psrc + 1 + k /\ pd = pdst + 1 + k /\
        exists g, Vw s (uPe (uIw v g (vhi v)) (fup pe' j pdst)) /\
          (forall q, q < pdst -> g q = f q) /\ (forall q, ps <= q -> g q = f q) /\
          (forall t, 0 <= t <= k -> g (pdst + t) = vIw v (psrc + t)))); [lia| | |].
      * split; [lia|]. split; [lia|]. exists (fup f pdst (vIw v psrc)). split; [exact V2|].
        split; [intros; apply fup_ne; lia|]. split; [intros; apply fup_ne; lia|]. intros t Ht. replace t with 0 by lia.
        rewrite !Z.add_0_r. apply fup_eq.
      * clear V1 V2 s1 s2. intros k [[ps pd] s3] Hk [-> [-> [g [V3 [G1 [G2 G3]]]]]]. ard. aw s4 V4. wok. split; [lia|]. split; [lia|].
        exists (fup g (pdst + 1 + k) (g (psrc + 1 + k))). split; [exact V4|].
        split; [intros; rewrite fup_ne by lia; apply G1; auto|]. split; [intros; rewrite fup_ne by lia; apply G2; lia|].
        intros t Ht. destruct (Z.eq_dec t (k + 1)) as [->|Ne].
        { replace (pdst + (k + 1)) with (pdst + 1 + k) by lia. rewrite fup_eq, G2 by lia. replace (psrc + (k + 1)) with (psrc + 1 + k) by lia.
          apply In_j. lia. }
        { rewrite fup_ne by lia. apply G3. lia. }
      * clear V1 V2 s1 s2. intros [[ps pd] s3] [-> [-> [g [V3 [G1 [G2 G3]]]]]].
        replace (psrc + 1 + (vLen v j - 1)) with (psrc + vLen v j) in * by lia.
        replace (pdst + 1 + (vLen v j - 1)) with (pdst + vLen v j) by lia.
        assert (Newcells : cells g pdst (C j)).
        { apply (cells_shift g (vIw v) psrc pdst); auto. intros t Ht. apply G3. lia. }
        split; [|lia]. exists g, (fup pe' j pdst). split; [exact V3|]. split; [|intros q Hq; rewrite G2 by lia; auto].
        assert (Part : forall i, lv i -> i <> j -> vPe v i + vLen v i <= psrc \/ psrc + vLen v j <= vPe v i).
        { intros i Li Ne. pose proof (m_dis _ _ _ M i j ltac:(tauto) ltac:(tauto) Ne ltac:(tauto) ltac:(tauto)). rewrite Ej in H. tauto. }
        assert (Old : forall i, lv i -> i <> j -> vPe v i < psrc + vLen v j -> vPe v i < psrc).
        { intros i Li Ne Hi. destruct (Part i Li Ne); pose proof (Pos i ltac:(tauto) ltac:(tauto)); lia. }
        unfold moved. split; [lia|]. split; [lia|]. split; [rewrite before_step; auto; lia|].
        split. { intros i Li. destruct (Z.eq_dec i j) as [->|Ne]; [left; lia|]. destruct (Part i Li Ne); [left; lia|right; lia]. }
        split. { intros i Li Hi. destruct (Z.eq_dec i j) as [->|Ne]; [lia|]. rewrite fup_ne by auto. rewrite G2 by lia. apply B4; auto. lia. }
        split. { intros i Li Hi. destruct (Z.eq_dec i j) as [->|Ne]; [rewrite fup_eq; split; [lia|]; split; [lia|auto]|].
          rewrite fup_ne by auto. destruct (B5 i Li (Old i Li Ne Hi)) as [Q1 [Q2 Q3]]. split; auto. split; [lia|].
          apply (cells_ext f); auto. intros q Hq. apply G1. rewrite <- (m_len _ _ _ M i) in Hq by tauto. lia. }
        split. { intros i k Li Lk Ne Hi Hk. destruct (Z.eq_dec i j) as [->|Ni]; destruct (Z.eq_dec k j) as [->|Nk]; try congruence.
          - rewrite fup_eq, fup_ne by auto. right. apply (B5 k Lk (Old k Lk Nk Hk)).
          - rewrite fup_eq, fup_ne by auto. left. apply (B5 i Li (Old i Li Ni Hi)).
          - rewrite !fup_ne by auto. apply B6; auto. }
        split. { intros i Ni. rewrite fup_ne; auto. intros ->. tauto. }
        split. { intros q Hq Hs. rewrite G2 by auto. apply B8; auto. lia. }
        intros q Hq. destruct (Z.lt_ge_cases q pdst) as [X|X]; [rewrite G1 by auto; apply B9; lia|].
        replace q with (pdst + (q - pdst)) by lia. rewrite G3 by lia. apply (m_rng _ _ _ M). lia.
    + assert (Ev : f psrc = vIw v psrc) by (apply B8; [lia|auto]). rewrite Ev.
      pose proof (m_rng _ _ _ M psrc ltac:(lia)) as Rg. destruct (Z.leb_spec 0 (FLIP (vIw v psrc))) as [X|X]; [rewrite FLIP_val in X; lia|].
      wok. split; [|lia]. exists f, pe'. split; [exact V|]. split; [|auto].
      assert (Part : forall i, lv i -> vPe v i + vLen v i <= psrc \/ psrc + 1 <= vPe v i).
      { intros i Li. specialize (Ns i Li). destruct (B3 i Li); [auto|]. right. lia. }
      unfold moved. split; [lia|]. split; [lia|]. split; [rewrite before_skip; auto|].
      split. { intros i Li. destruct (Part i Li); [left; lia|right; lia]. }
      split. { intros i Li Hi. apply B4; auto. lia. }
      split. { intros i Li Hi. apply B5; auto. destruct (Part i Li); pose proof (Pos i ltac:(tauto) ltac:(tauto)); lia. }
      split. { intros i k Li Lk Ne Hi Hk. apply B6; auto; [destruct (Part i Li); pose proof (Pos i ltac:(tauto) ltac:(tauto)); lia
                 |destruct (Part k Lk); pose proof (Pos k ltac:(tauto) ltac:(tauto)); lia]. }
      split; auto. split; auto. intros q Hq Hs. apply B8; auto. lia.
Qed.

(** The collection as a whole, from the marking on; the cells above [pme1] are kept. *)
Lemma gc_tail_ok me e s (Q : Z * Z * Z * ast -> Prop) : Vw s v -> 0 <= me < n -> 0 <= e < n ->
  (forall s' f pe' p1, Vw s' (upf (uPe (uIw v f (vhi v)) pe') (p1 + (vpf v - pme1))) ->
     p1 = used v -> p1 <= pme1 ->
     (forall j, lv j -> 0 <= pe' j) -> (forall j, ~ lv j -> pe' j = vPe v j) ->
     Mem (upf (uPe (uIw v f (vhi v)) pe') (p1 + (vpf v - pme1))) C p1 ->
     (forall t, 0 <= t < vpf v - pme1 -> f (p1 + t) = vIw v (pme1 + t)) -> Q (p1, pe' me, pe' e, s')) ->
  wp (s <- gc_mark n s ;;
      '(pdst, s) <- gc_move (pme1 - 1) s ;;
      let p1 := pdst in
      '(pdst, s) <- for_ pme1 (pfree s) (fun psrc '(pdst, s) =>
        v <- rd (aIw s) psrc ;; s <- sIw s pdst v ;; Ok (pdst + 1, s)) (pdst, s) ;;
      let s := s <| pfree := pdst |> in
      pj <- rd (aPe s) e ;;
      p <- rd (aPe s) me ;;
      Ok (p1, p, pj, s)) Q.
Proof.
  intros V Hme He HQ. pose proof (m_pf _ _ _ M) as Hpf. pose proof (m_hi _ _ _ M) as Hhi.
  wb. apply gc_mark_ok; [exact V|]. intros s1 f1 pe1 V1 A1 A2 A3 A4.
  assert (A5 : forall q, pme1 <= q -> f1 q = vIw v q).
  { intros q Hq. apply A4. intros j Lj Ej. pose proof (lv_bound j Lj). lia. }
  wb. apply (gc_move_ok s1 f1 pe1); [exact V1| |].
  - unfold moved. split; [lia|]. split; [lia|]. split.
    { unfold before. symmetry. apply sumz_zero. intros j Hj. unfold live. destruct (Z.leb_spec 0 (vPe v j)); simpl; auto.
      destruct (Z.ltb_spec (vPe v j) 0); auto. lia. }
    split; [intros; right; lia|]. split; [auto|]. split; [intros; lia|]. split; [intros; lia|]. split; auto. split; auto. intros; lia.
  - clear s1 V1. intros s2 f2 pe2 p1 V2 HM Hf. destruct HM as [B0 [B1 [B2 [B3 [B4 [B5 [B6 [B7 [B8 B9]]]]]]]]].
    assert (Lt : forall j, lv j -> vPe v j < pme1) by (intros j Lj; pose proof (lv_bound j Lj); lia).
    cbv zeta. rewrite (V_pf _ _ _ _ V2). vs. wb.
    apply (wp_for_le (fun k '(pd, s) => pd = p1 + (k - pme1) /\ exists g, Vw s (uPe (uIw v g (vhi v)) pe2) /\
       (forall q, q < p1 -> g q = f2 q) /\ (forall q, k <= q -> g q = f2 q) /\
       (forall t, 0 <= t < k - pme1 -> g (p1 + t) = vIw v (pme1 + t)))); [lia| | |].
    + split; [lia|]. exists f2. split; [exact V2|]. split; auto. split; auto. intros; lia.
    + clear s2 V2. intros k [pd s3] Hk [-> [g [V3 [G1 [G2 G3]]]]]. ard. aw s4 V4. wok. split; [lia|].
      exists (fup g (p1 + (k - pme1)) (g k)). split; [exact V4|]. split; [intros; rewrite fup_ne by lia; auto|].
      split; [intros; rewrite fup_ne by lia; apply G2; lia|]. intros t Ht. destruct (Z.eq_dec t (k - pme1)) as [->|Ne].
      * rewrite fup_eq, G2, Hf, A5 by lia. f_equal. lia.
      * rewrite fup_ne by lia. apply G3. lia.
    + clear s2 V2. intros [pd s3] [-> [g [V3 [G1 [G2 G3]]]]].
      pose proof (Spf _ _ _ _ (p1 + (vpf v - pme1)) V3) as V4. ard. ard. wok.
      apply (HQ _ g pe2 p1); auto.
      * rewrite B2. unfold before, used. apply sumz_ext. intros j Hj. apply in_zr in Hj. unfold live.
        destruct (Z.leb_spec 0 (vPe v j)); simpl; auto. destruct (Z.ltb_spec (vPe v j) pme1); auto. pose proof (Lt j (conj Hj H)). lia.
      * lia.
      * intros j Lj. apply (B5 j Lj). auto.
      * assert (Back : forall j, 0 <= j < n -> 0 <= pe2 j -> lv j).
        { intros j Hj Hp. destruct (Z.le_gt_cases 0 (vPe v j)); auto. rewrite B7 in Hp by lia. lia. }
        constructor; vs.
        { intros i Hi Hp. apply (m_len _ _ _ M); auto. apply (Back i Hi Hp). }
        { intros i Hi Hp. pose proof (Back i Hi Hp) as Li. destruct (B5 i Li (Lt i Li)) as [Q1 [Q2 Q3]].
          apply (cells_ext f2); auto. intros q Hq. apply G1. rewrite <- (m_len _ _ _ M i) in Hq by tauto. lia. }
        { intros i Hi Hp. pose proof (Back i Hi Hp) as Li. apply (B5 i Li (Lt i Li)). }
        { intros i j Hi Hj Ne Hpi Hpj. pose proof (Back i Hi Hpi) as Li. pose proof (Back j Hj Hpj) as Lj. apply B6; auto. }
        { lia. }
        { lia. }
        { intros q Hq. destruct (Z.lt_ge_cases q p1) as [X|X]; [rewrite G1 by auto; apply B9; lia|].
          replace q with (p1 + (q - p1)) by lia. rewrite G3 by lia. apply (m_rng _ _ _ M). lia. }
Qed.
End Gc.
End Mem.
