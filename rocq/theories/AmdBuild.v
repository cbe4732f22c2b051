(** Building the new element: src/amd_2.c:751-996. *)
From Coq Require Import ZArith List Lia Bool.
From RecordUpdate Require Import RecordUpdate.
From Verif Require Import Res Lists MAmd AmdBase AmdView AmdLists AmdGc AmdInv.
Import ListNotations.
Open Scope Z_scope.
Open Scope res_scope.

Lemma clear_flag_ok n iwlen s v (Q : ast -> Prop) : 0 <= n -> Vw n iwlen s v ->
  (forall i, 0 <= i < n -> 0 <= vW v i) -> (2 <= vwf v -> forall i, 0 <= i < n -> vW v i < vwf v) ->
  (forall s' w f, Vw n iwlen s' (uwf (uW v w) f) -> 2 <= f ->
     (forall i, 0 <= i < n -> 0 <= w i < f /\ (w i = 0 <-> vW v i = 0)) -> Q s') ->
  wp (clear_flag n s) Q.
Proof.
  intros Hn V Hw Hf HQ. unfold clear_flag. rewrite (V_wf _ _ _ _ V).
  destruct (Z.ltb_spec (vwf v) 2) as [L|L]; [|destruct (Z.leb_spec (wbig n) (vwf v)) as [L2|L2]]; cbn [orb].
  3: { wok. apply (HQ s (vW v) (vwf v)); auto. { destruct v; exact V. } intros i Hi. pose proof (Hw i Hi). pose proof (Hf L i Hi). lia. }
  all: wb; apply (wp_for_le (fun k s => exists w, Vw n iwlen s (uW v w) /\ (forall i, 0 <= i < k -> w i = if vW v i =? 0 then 0 else 1) /\
         (forall i, k <= i -> w i = vW v i))); auto.
  all: try (exists (vW v); split; [destruct v; exact V|]; split; auto; intros; lia).
  all: try (intros k s' Hk [w [V' [A1 A2]]]; ard; rewrite A2 by lia; destruct (Z.eqb_spec (vW v k) 0) as [E|E]; simpl negb; cbv iota;
    [wok; exists w; split; [exact V'|]; split; [|intros; apply A2; lia]; intros i Hi; destruct (Z.eq_dec i k) as [->|Ne];
      [rewrite A2, E by lia; reflexivity|apply A1; lia]
    |awl s2 V2; exists (fup w k 1); split; [exact V2|]; split; [|intros; rewrite fup_ne by lia; apply A2; lia];
      intros i Hi; destruct (Z.eq_dec i k) as [->|Ne];
      [rewrite fup_eq; destruct (Z.eqb_spec (vW v k) 0); [congruence|reflexivity]|rewrite fup_ne by auto; apply A1; lia]]).
  all: intros s' [w [V' [A1 A2]]]; wok; apply (HQ _ w 2); [apply Swf; exact V'|lia|]; intros i Hi; rewrite A1 by auto;
    destruct (Z.eqb_spec (vW v i) 0); lia.
Qed.

Lemma zlen_filter {A} (f : A -> bool) l : zlen (filter f l) <= zlen l.
Proof. induction l as [|x l IH]; simpl; [lia|]. destruct (f x); rewrite !zlen_cons; lia. Qed.

Section Build.
Variables (n iwlen pf0 : Z).
Notation Vw := (Vw n iwlen).
Notation Mem := (Mem n).
Notation var := (var n).
Notation elt := (elt n).

(** Cutting the front off a segment. *)
Lemma Mem_cut v C lim x dn rest pe' len' : Mem v C lim -> 0 <= x < n -> 0 <= vPe v x -> C x = dn ++ rest ->
  (forall i, i <> x -> pe' i = vPe v i) -> (forall i, i <> x -> len' i = vLen v i) -> len' x = zlen rest ->
  (rest <> [] -> pe' x = vPe v x + zlen dn) -> (rest = [] -> pe' x = -1) ->
  Mem (uLen (uPe v pe') len') (lset C x rest) lim.
Proof.
  intros M Hx Lx EC P1 P2 P3 P4 P5.
  assert (EL : vLen v x = zlen dn + zlen rest) by (rewrite (m_len _ _ _ _ M x Hx Lx), EC, zlen_app; auto).
  pose proof (zlen_nonneg dn). pose proof (zlen_nonneg rest).
  assert (Px : 0 <= pe' x -> pe' x = vPe v x + zlen dn).
  { intros H'. destruct rest; [rewrite P5 in H' by auto; lia|]. apply P4. discriminate. }
  constructor; vs.
  - intros i Hi Li. destruct (Z.eq_dec i x) as [->|Ne]; [rewrite lset_eq; auto|]. rewrite lset_ne, P2, P1 in * by auto. apply M; auto.
  - intros i Hi Li. destruct (Z.eq_dec i x) as [->|Ne].
    + rewrite lset_eq, Px by auto. pose proof (m_cells _ _ _ _ M x Hx Lx) as C1. rewrite EC in C1. apply cells_app in C1. tauto.
    + rewrite lset_ne, P1 in * by auto. apply M; auto.
  - intros i Hi Li. destruct (Z.eq_dec i x) as [->|Ne].
    + rewrite P3, Px by auto. pose proof (m_lim _ _ _ _ M x Hx Lx). lia.
    + rewrite P1, P2 in * by auto. apply M; auto.
  - intros i j Hi Hj Ne Li Lj. destruct (Z.eq_dec i x) as [->|Ni]; destruct (Z.eq_dec j x) as [->|Nj]; try congruence.
    + rewrite (P1 j), (P2 j) in * by auto. rewrite Px, P3 by auto. pose proof (m_dis _ _ _ _ M x j Hx Hj Ne Lx Lj). lia.
    + rewrite (P1 i), (P2 i) in * by auto. rewrite Px, P3 by auto. pose proof (m_dis _ _ _ _ M i x Hi Hx Ne Li Lx). lia.
    + rewrite !P1, !P2 in * by auto. apply M; auto.
  - apply M.
  - apply M.
  - apply M.
Qed.

(** The state at the head of the loop. *)
Variables (v0 : vw) (C E V : Z -> list Z) (rep : Z -> Z) (dl : Z -> list Z) (me : Z).
Hypothesis I0 : INV n iwlen pf0 (-1) [] [] 0 0 (vwf v0) v0 C E V rep dl (fun _ => []).
Hypothesis Hme : var v0 me.
Hypothesis Hroom : pf0 + n <= iwlen.
Let G0 := i_g _ _ _ _ _ _ _ _ _ _ _ _ _ _ _ _ I0.
Let M0 := i_m _ _ _ _ _ _ _ _ _ _ _ _ _ _ _ _ I0.

Lemma nv0_nonneg i : 0 <= i < n -> 0 <= vNv v0 i.
Proof.
  intros Hi. destruct (Z.le_gt_cases 0 (vNv v0 i)); auto. destruct (g_neg _ _ _ _ _ _ _ _ G0 i Hi ltac:(lia)) as [->|[]]. lia.
Qed.
Lemma nv0_pos i : var v0 i -> 0 < vNv v0 i.
Proof. intros [Hi [Hz _]]. pose proof (nv0_nonneg i Hi). lia. Qed.

(** What gathering the variables [Lm] does outside the workspace. *)
Record GS (Lm : list Z) (v : vw) : Prop := mkGS {
  gs_elen : vElen v = vElen v0;
  gs_deg : vDeg v = vDeg v0;
  gs_wf : vwf v = vwf v0;
  gs_le : vle v = vle v0;
  gs_nel : vnel v = vnel v0 + vNv v0 me;
  gs_nv : forall x, vNv v x = if (x =? me) || inb x Lm then - vNv v0 x else vNv v0 x;
  gs_dl : exists dl', HL n v dl' (fun _ => []) /\
            forall x d, In x (dl' d) <-> var v0 x /\ x <> me /\ ~ In x Lm /\ vDeg v0 x = d;
  gs_md : 0 <= vmd v /\ forall x, var v0 x -> x <> me -> vmd v <= vDeg v0 x;
  gs_nd : NoDup Lm;
  gs_Lm : forall x, In x Lm -> var v0 x /\ x <> me
}.

Lemma GS_take s v v' Lm x (Q : ast -> Prop) : GS Lm v -> Vw s v' -> var v0 x -> x <> me -> ~ In x Lm ->
  vElen v' = vElen v -> vDeg v' = vDeg v -> vwf v' = vwf v -> vle v' = vle v -> vnel v' = vnel v ->
  vNv v' = fup (vNv v) x (- vNv v x) -> vHead v' = vHead v -> vNext v' = vNext v -> vLast v' = vLast v -> vmd v' = vmd v ->
  (forall s' nx la hd', let v2 := uHead (uLast (uNext v' nx) la) hd' in Vw s' v2 -> GS (Lm ++ [x]) v2 -> Q s') ->
  wp (unlink s x) Q.
Proof.
  intros G Vs Vx Nm Nx E1 E2 E3 E4 E5 E6 E7 E8 E9 E10 HQ.
  destruct (gs_dl _ _ G) as [dl' [H Hdl]].
  pose proof (d_rng _ _ _ _ _ (i_d _ _ _ _ _ _ _ _ _ _ _ _ _ _ _ _ I0) x Vx) as Hd.
  assert (Hin : In x (dl' (vDeg v0 x))) by (apply Hdl; auto).
  destruct (in_split _ _ Hin) as [l1 [l2 El]].
  assert (H' : HL n v' dl' (fun _ => [])).
  { destruct H. constructor; auto; rewrite ?E7, ?E8, ?E9; auto. }
  apply (unlink_ok n iwlen s v' dl' x l1 l2 (vDeg v0 x)); auto.
  { rewrite E2, (gs_deg _ _ G). reflexivity. }
  intros s' nx la hd' v2 V2 H2. apply (HQ s' nx la hd'); auto. fold v2.
  pose proof (hl_nd _ _ _ _ H (vDeg v0 x)) as ND. rewrite app_nil_r, El in ND. destruct (NoDup_mid _ _ _ ND) as [N1 [N2 N3]].
  constructor; unfold v2; vs.
  - rewrite E1. apply G.
  - rewrite E2. apply G.
  - rewrite E3. apply G.
  - rewrite E4. apply G.
  - rewrite E5. apply G.
  - intros y. rewrite E6. unfold fup. rewrite !(gs_nv _ _ G).
    destruct (Z.eqb_spec y x) as [->|Ny].
    + destruct (Z.eqb_spec x me); [congruence|]. rewrite (inb_out x Lm) by auto. simpl.
      destruct (inb_spec x (Lm ++ [x])) as [_|X]; auto. exfalso. apply X. apply in_app_iff. right; left; auto.
    + replace (inb y (Lm ++ [x])) with (inb y Lm); auto.
      destruct (inb_spec y Lm) as [X|X]; destruct (inb_spec y (Lm ++ [x])) as [Y|Y]; auto.
      * exfalso. apply Y. apply in_app_iff; auto.
      * exfalso. apply in_app_iff in Y. destruct Y as [Y|[Y|[]]]; [auto|congruence].
  - exists (lset dl' (vDeg v0 x) (l1 ++ l2)). split; [exact H2|]. intros y d.
    assert (Ey : In y (Lm ++ [x]) <-> In y Lm \/ y = x) by (rewrite in_app_iff; simpl; intuition congruence).
    rewrite Ey. destruct (Z.eq_dec d (vDeg v0 x)) as [->|Nd].
    + rewrite lset_eq. destruct (Z.eq_dec y x) as [->|Ny].
      * split; [|tauto]. intros X. apply in_app_iff in X. tauto.
      * rewrite in_app_iff. specialize (Hdl y (vDeg v0 x)). rewrite El, in_app_iff in Hdl. simpl in Hdl.
        assert (x <> y) by congruence. tauto.
    + rewrite lset_ne by auto. rewrite Hdl. assert (vDeg v0 y = d -> y <> x) by congruence. tauto.
  - rewrite E10. apply G.
  - apply NoDup_app_iff. split; [apply G|]. split; [constructor; [intros []|constructor]|]. intros y Y [->|[]]. auto.
  - intros y Y. apply in_app_iff in Y. destruct Y as [Y|[<-|[]]]; [apply G; auto|auto].
Qed.

Lemma GS_short Lm v x : GS Lm v -> var v0 x -> x <> me -> ~ In x Lm -> zlen Lm + 2 <= n.
Proof.
  intros G Vx Nx Hx. assert (ND : NoDup (me :: x :: Lm)).
  { constructor; [|constructor; [auto|apply G]]. intros [X|X]; [congruence|]. apply (gs_Lm _ _ G) in X. tauto. }
  pose proof (NoDup_bounded_length (me :: x :: Lm) 0 n ND) as B. destruct Hme as [Hm _].
  assert (zlen (me :: x :: Lm) <= Z.max 0 (n - 0)).
  { apply B. intros y [<-|[<-|Y]]; [apply Hme|apply Vx|]. apply (gs_Lm _ _ G) in Y. apply Y. }
  rewrite !zlen_cons in H. lia.
Qed.

(** ** In place *)
Definition posb (x : Z) : bool := 0 <? vNv v0 x.

Lemma in_place_ok s v (Q : Z * Z * Z * ast -> Prop) : Vw s v -> GS [] v -> E me = [] ->
  vPe v = vPe v0 -> vLen v = vLen v0 -> vW v = vW v0 -> vIw v = vIw v0 -> vhi v = vhi v0 -> vpf v = vpf v0 ->
  (forall s' v', Vw s' v' -> let Lm := filter posb (V me) in GS Lm v' ->
     vPe v' = vPe v0 -> vLen v' = vLen v0 -> vW v' = vW v0 -> vhi v' = vhi v0 -> vpf v' = vpf v0 ->
     (forall q, ~ (vPe v0 me <= q < vPe v0 me + zlen Lm) -> vIw v' q = vIw v0 q) -> cells (vIw v') (vPe v0 me) Lm ->
     Q (vPe v0 me, vPe v0 me - 1 + zlen Lm, sumz (vNv v0) Lm, s')) ->
  wp (build_in_place me s) Q.
Proof.
  intros Vs G Ee P1 P2 P3 P4 P5 P6 HQ. unfold build_in_place.
  pose proof Hme as [Hm Hm'].
  destruct (g_var _ _ _ _ _ _ _ _ G0 me Hme) as [EC [EL [_ ND]]]. rewrite Ee in EC. simpl in EC.
  destruct (kind_var _ _ _ (g_kind _ _ _ _ _ _ _ _ G0 me Hm) Hme) as [Lm0 _].
  pose proof (m_cells _ _ _ _ M0 me Hm Lm0) as Cm. rewrite EC in Cm.
  pose proof (m_len _ _ _ _ M0 me Hm Lm0) as Ln. rewrite EC in Ln.
  pose proof (m_lim _ _ _ _ M0 me Hm Lm0) as Lim. pose proof (m_hi _ _ _ _ M0) as Hhi.
  ard. rewrite P1. ard. rewrite P2. wb.
  apply (wp_for_list (V me) (fun d r '(s, degme, pme2) => exists v', Vw s v' /\ let Lm := filter posb d in GS Lm v' /\
     vPe v' = vPe v0 /\ vLen v' = vLen v0 /\ vW v' = vW v0 /\ vhi v' = vhi v0 /\ vpf v' = vpf v0 /\
     (forall q, ~ (vPe v0 me <= q < vPe v0 me + zlen Lm) -> vIw v' q = vIw v0 q) /\ cells (vIw v') (vPe v0 me) Lm /\
     degme = sumz (vNv v0) Lm /\ pme2 = vPe v0 me - 1 + zlen Lm /\ zlen Lm <= zlen d)).
  - lia.
  - exists v. split; [exact Vs|]. cbv zeta. simpl filter. change (zlen (@nil Z)) with 0.
    do 6 (split; [auto|]). split; [intros; rewrite P4; auto|]. split; [exact I|]. split; [reflexivity|]. lia.
  - clear s Vs G. intros d x r [[s degme] pme2] Ed [v' [Vs [G [Q1 [Q2 [Q3 [Q4 [Q5 [Q6 [Q7 [-> [-> Q8]]]]]]]]]]]].
    set (Lm := filter posb d) in *. pose proof (zlen_nonneg Lm) as Z1. pose proof (zlen_nonneg d) as Z2.
    assert (Zl : zlen (V me) = zlen d + zlen r + 1) by (rewrite Ed, zlen_app, zlen_cons; lia). pose proof (zlen_nonneg r) as Z3.
    ard. assert (Ex : vIw v' (vPe v0 me + zlen d) = x).
    { rewrite Q6 by lia. rewrite Ed in Cm. apply cells_app in Cm. destruct Cm as [_ [Cx _]]. auto. }
    rewrite Ex. assert (Hx : In x (V me)) by (rewrite Ed; apply in_app_iff; right; left; auto).
    destruct (g_V _ _ _ _ _ _ _ _ G0 me x Hme Hx) as [Nx [Rx Kx]].
    rewrite Ed in ND. destruct (NoDup_mid _ _ _ ND) as [N1 [N2 N3]].
    assert (Nl : ~ In x Lm) by (unfold Lm; rewrite filter_In; tauto).
    assert (Env : vNv v' x = vNv v0 x).
    { rewrite (gs_nv _ _ G). destruct (Z.eqb_spec x me); [congruence|]. rewrite inb_out; auto. }
    ard. rewrite Env. rewrite filter_app. cbn [filter]. fold Lm. change (posb x) with (0 <? vNv v0 x).
    destruct (Z.ltb_spec 0 (vNv v0 x)) as [L|L].
    + assert (Vx : var v0 x). { destruct Kx as [Kx|[Kx|[_ []]]]; [auto|lia]. }
      aw s1 V1. aw s2 V2. wb. eapply (GS_take s2 v'); [exact G|exact V2|auto|auto|auto|auto|auto|auto|auto|auto| |auto|auto|auto|auto|].
      { vs. rewrite Env. reflexivity. }
      clear s1 V1 s2 V2. intros s3 nx la hd' v3 V3 G3. wok. exists v3. split; [exact V3|]. cbv zeta.
      rewrite !zlen_app, !zlen_cons. change (zlen (@nil Z)) with 0. unfold v3 in *. vs.
      split; [exact G3|]. do 5 (split; [auto|]).
      split. { intros q Hq. replace (vPe v0 me - 1 + zlen Lm + 1) with (vPe v0 me + zlen Lm) by lia. rewrite fup_ne by lia. apply Q6. lia. }
      split. { apply cells_app. replace (vPe v0 me - 1 + zlen Lm + 1) with (vPe v0 me + zlen Lm) by lia. split.
        - apply cells_fup; auto. lia.
        - simpl. rewrite fup_eq. auto. }
      split; [rewrite sumz_app; simpl; lia|]. lia.
    + wok. exists v'. split; [exact Vs|]. cbv zeta. rewrite app_nil_r. rewrite zlen_app, zlen_cons. change (zlen (@nil Z)) with 0.
      do 8 (split; [auto|]). split; [auto|]. split; [auto|lia].
  - intros [[s' degme] pme2] [v' [Vs' [G' [Q1 [Q2 [Q3 [Q4 [Q5 [Q6 [Q7 [-> [-> Q8]]]]]]]]]]]]. wok. apply (HQ s' v'); auto.
Qed.

(** ** In empty space *)

Definition ptr (v : vw) (C' : Z -> list Z) (x q : Z) (rest : list Z) : Prop :=
  (0 <= vPe v x /\ exists dn, C' x = dn ++ rest /\ q = vPe v x + zlen dn) \/ (vPe v x = -1 /\ rest = []).

(** The workspace while the element is gathered from [pme1] on; the elements [dead] have been absorbed and the list
    of [cur] is being read. *)
Record GM (v : vw) (C' : Z -> list Z) (pme1 : Z) (Lm dead : list Z) (cur : Z) : Prop := mkGM {
  gm_mem : Mem v C' pme1;
  gm_cells : cells (vIw v) pme1 Lm;
  gm_pf : vpf v = pme1 + zlen Lm;
  gm_C : forall i, i <> me -> i <> cur -> C' i = C i;
  gm_dead : forall i, In i dead -> vPe v i = FLIP me;
  gm_pe : forall i, 0 <= i < n -> i <> me -> i <> cur -> ~ In i dead ->
            (0 <= vPe v0 i -> 0 <= vPe v i) /\ (vPe v0 i < 0 -> vPe v i = vPe v0 i) /\ vLen v i = vLen v0 i;
  gm_sub : forall i, 0 <= i < n -> 0 <= vPe v i -> 0 <= vPe v0 i /\ 1 <= vLen v i <= vLen v0 i;
  gm_w : forall i, vW v i = if inb i dead then 0 else vW v0 i;
  gm_stat : ((forall i, C' i = C i) /\ vLen v = vLen v0 /\ forall i, ~ In i dead -> vPe v i = vPe v0 i) \/ vpf v <= pf0 + zlen Lm;
  gm_hi : vpf v <= iwlen;
  gm_me : -1 <= vPe v me
}.

Lemma GS_ext Lm v v' : GS Lm v -> vElen v' = vElen v -> vDeg v' = vDeg v -> vwf v' = vwf v -> vle v' = vle v -> vnel v' = vnel v ->
  vNv v' = vNv v -> vHead v' = vHead v -> vNext v' = vNext v -> vLast v' = vLast v -> vmd v' = vmd v -> GS Lm v'.
Proof.
  intros G E1 E2 E3 E4 E5 E6 E7 E8 E9 E10. destruct G. constructor; try congruence.
  - rewrite E6. auto.
  - destruct gs_dl0 as [dl' [H Hd]]. exists dl'. split; auto. destruct H. constructor; rewrite ?E7, ?E8, ?E9; auto.
  - rewrite E10. auto.
  - auto.
Qed.

Lemma me_rng : 0 <= me < n. Proof. apply Hme. Qed.
Lemma used0 : used n v0 <= pf0.
Proof. apply (i_used _ _ _ _ _ _ _ _ _ _ _ _ _ _ _ _ I0). Qed.

Lemma gc_ok s v C' pme1 Lm dead e knt1 ln knt2 p pj r2 rme (Q : Z * Z * Z * ast -> Prop) :
  Vw s v -> GS Lm v -> GM v C' pme1 Lm dead e -> 0 <= e < n -> ~ In e dead -> ~ In me dead ->
  (forall i, C' i = C i) -> vLen v = vLen v0 -> (forall i, ~ In i dead -> vPe v i = vPe v0 i) ->
  0 <= vPe v e -> ptr v C' e pj r2 -> (e <> me -> ptr v C' me p rme /\ vLen v0 me - knt1 = zlen rme) -> ln - knt2 = zlen r2 ->
  (forall s' v' C'' pme1' p' pj', Vw s' v' -> GS Lm v' -> GM v' C'' pme1' Lm dead e -> vpf v' <= pf0 + zlen Lm ->
     ptr v' C'' e pj' r2 -> (e <> me -> ptr v' C'' me p' rme) -> Q (pme1', p', pj', s')) ->
  wp (gc n me e p pj pme1 knt1 ln knt2 s) Q.
Proof.
  intros Vs G M He Nd Ndm EC EL EP Le Pj Pm Hln HQ. pose proof me_rng as Hm.
  pose proof (m_pf _ _ _ _ (gm_mem _ _ _ _ _ _ M)) as Hpf.
  assert (Lme : 0 <= vPe v me).
  { rewrite EP by auto. apply (kind_var _ _ _ (g_kind _ _ _ _ _ _ _ _ G0 me Hm) Hme). }
  assert (Pe' : exists dn, C' e = dn ++ r2 /\ pj = vPe v e + zlen dn) by (destruct Pj as [[_ X]|[X _]]; [auto|lia]).
  destruct Pe' as [dn [ECe Epj]]. pose proof (zlen_nonneg dn) as Zdn. pose proof (zlen_nonneg r2) as Zr2.
  (* the state before the marking *)
  assert (Main : forall s1 pe1 len1 C1,
    Vw s1 (uLen (uPe v pe1) len1) -> Mem (uLen (uPe v pe1) len1) C1 pme1 ->
    (forall i, i <> me -> i <> e -> pe1 i = vPe v i /\ len1 i = vLen v i /\ C1 i = C' i) ->
    (r2 <> [] -> 0 <= pe1 e) -> (r2 = [] -> pe1 e = -1) -> len1 e = zlen r2 -> C1 e = r2 ->
    (e <> me -> (rme <> [] -> 0 <= pe1 me) /\ (rme = [] -> pe1 me = -1) /\ len1 me = zlen rme /\ C1 me = rme) ->
    (forall i, 0 <= i < n -> len1 i <= vLen v i) ->
    wp (s <- gc_mark n s1 ;;
      '(pdst, s) <- gc_move (pme1 - 1) s ;;
      let p1 := pdst in
      '(pdst, s) <- for_ pme1 (pfree s) (fun psrc '(pdst, s) =>
        v <- rd (aIw s) psrc ;; s <- sIw s pdst v ;; Ok (pdst + 1, s)) (pdst, s) ;;
      let s := s <| pfree := pdst |> in
      pj <- rd (aPe s) e ;;
      p <- rd (aPe s) me ;;
      Ok (p1, p, pj, s)) Q).
  { intros s1 pe1 len1 C1 V1 M1 Oth A1 A2 A3 A4 Am Al.
    assert (Liv : forall i, 0 <= i < n -> 0 <= pe1 i -> 0 <= vPe v i /\ 1 <= len1 i).
    { intros i Hi Li. destruct (Z.eq_dec i e) as [->|Ne].
      - split; auto. destruct r2; [rewrite A2 in Li by auto; lia|]. rewrite A3, zlen_cons. pose proof (zlen_nonneg r2). lia.
      - destruct (Z.eq_dec i me) as [->|Nm].
        + split; auto. destruct (Am ltac:(congruence)) as [_ [B1 [B2 _]]]. destruct rme; [rewrite B1 in Li by auto; lia|].
          rewrite B2, zlen_cons. pose proof (zlen_nonneg rme). lia.
        + destruct (Oth i Nm Ne) as [P1 [P2 _]]. rewrite P1, P2 in *. split; auto. apply (gm_sub _ _ _ _ _ _ M i Hi Li). }
    apply (gc_tail_ok n iwlen (uLen (uPe v pe1) len1) C1 pme1 M1); [|lia|exact V1|lia|lia|].
    { vs. intros i Hi Li. apply (Liv i Hi Li). }
    vs. intros s2 f pe' p1 V2 Ep1 Lp1 B1 B2 M2 B3.
    assert (U : p1 <= pf0).
    { rewrite Ep1. apply Z.le_trans with (used n v0); [|apply used0]. apply sumz_le. intros i Hi. apply in_zr in Hi. unfold live. vs.
      destruct (Z.leb_spec 0 (pe1 i)) as [L|L].
      - destruct (Liv i Hi L) as [L1 L2]. destruct (gm_sub _ _ _ _ _ _ M i Hi L1) as [L3 L4].
        destruct (Z.leb_spec 0 (vPe v0 i)); [|lia]. specialize (Al i Hi). lia.
      - destruct (Z.leb_spec 0 (vPe v0 i)) as [L3|L3]; [|lia]. pose proof (m_len _ _ _ _ M0 i Hi L3). pose proof (zlen_nonneg (C i)). lia. }
    assert (Back : forall i, 0 <= i < n -> 0 <= pe' i -> 0 <= pe1 i).
    { intros i Hi L. destruct (Z.le_gt_cases 0 (pe1 i)); auto. rewrite B2 in L by lia. lia. }
    rewrite (gm_pf _ _ _ _ _ _ M) in *. replace (pme1 + zlen Lm - pme1) with (zlen Lm) in * by lia.
    eapply HQ; [exact V2| | | | |].
    - eapply GS_ext; [exact G|reflexivity..].
    - constructor; vs.
      + exact M2.
      + apply (cells_shift f (vIw v) pme1); [auto|apply M].
      + reflexivity.
      + intros i N1 N2. destruct (Oth i N1 N2) as [_ [_ X]]. rewrite X. apply EC.
      + intros i Hi. assert (i <> me /\ i <> e) as [N1 N2] by (split; congruence).
        destruct (Oth i N1 N2) as [X _]. rewrite B2; [rewrite X; apply M; auto|]. rewrite X, (gm_dead _ _ _ _ _ _ M i Hi), FLIP_val. lia.
      + intros i Hi N1 N2 N3. destruct (Oth i N1 N2) as [X [Y _]]. 
        split; [intros L; apply B1; split; auto; rewrite X, EP; auto|]. split; [|rewrite Y, EL; auto].
        intros L. rewrite B2; [rewrite X, EP; auto|]. rewrite X, EP by auto. lia.
      + intros i Hi L. pose proof (Back i Hi L) as L1. destruct (Liv i Hi L1) as [L2 L3]. destruct (gm_sub _ _ _ _ _ _ M i Hi L2) as [L4 L5].
        split; auto. specialize (Al i Hi). lia.
      + apply M.
      + right. lia.
      + pose proof (gm_hi _ _ _ _ _ _ M). rewrite (gm_pf _ _ _ _ _ _ M) in H. lia.
      + destruct (Z.le_gt_cases 0 (pe1 me)) as [L|L]; [specialize (B1 me (conj Hm L)); lia|]. rewrite B2 by lia.
        destruct (Z.eq_dec e me) as [->|Ne].
        * destruct r2; [rewrite A2 by auto; lia|]. specialize (A1 ltac:(discriminate)). lia.
        * destruct (Am Ne) as [C2 [C3 _]]. destruct rme; [rewrite C3 by auto; lia|]. specialize (C2 ltac:(discriminate)). lia.
    - vs. lia.
    - unfold ptr. vs. destruct r2 as [|y t].
      + right. split; auto. rewrite B2; [auto|]. rewrite A2 by auto. lia.
      + left. assert (0 <= pe1 e) by (apply A1; discriminate). split; [apply B1; auto|]. exists []. split; [rewrite A4; auto|].
        change (zlen (@nil Z)) with 0. lia.
    - intros Ne. destruct (Am Ne) as [C2 [C3 [C4 C5]]]. unfold ptr. vs. destruct rme as [|y t].
      + right. split; auto. rewrite B2; [auto|]. rewrite C3 by auto. lia.
      + left. assert (0 <= pe1 me) by (apply C2; discriminate). split; [apply B1; auto|]. exists []. split; [rewrite C5; auto|].
        change (zlen (@nil Z)) with 0. lia. }
  unfold gc. aw s1 V1. ard. aw s2 V2. ard. rewrite fup_eq.
  destruct (Z.eq_dec e me) as [->|Ne].
  - (* reading me's own variables *)
    wb. eapply wp_mono with (P := fun s3 => exists pe2, Vw s3 (uLen (uPe v pe2) (fup (vLen v) me (vLen v me - knt1))) /\
        (forall i, i <> me -> pe2 i = vPe v i)).
    { destruct (vLen v me - knt1 =? 0).
      - awl s3 V3. eexists. split; [exact V3|]. intros i Ni. vs. rewrite !fup_ne by auto. auto.
      - wok. eexists. split; [exact V2|]. intros i Ni. vs. rewrite fup_ne by auto. auto. }
    clear s1 V1 s2 V2. intros s3 [pe2 [V3 Hpe2]]. aw s4 V4. aw s5 V5. ard. rewrite fup_eq, Hln.
    wb. eapply wp_mono with (P := fun s6 => exists pe3, Vw s6 (uLen (uPe v pe3) (fup (fup (vLen v) me (vLen v me - knt1)) me (ln - knt2))) /\
        (forall i, i <> me -> pe3 i = vPe v i) /\ pe3 me = if zlen r2 =? 0 then -1 else pj).
    { destruct (zlen r2 =? 0).
      - awl s6 V6. eexists. split; [exact V6|]. split; [intros i Ni; vs; rewrite !fup_ne by auto; auto|]. apply fup_eq.
      - wok. eexists. split; [exact V5|]. split; [intros i Ni; vs; rewrite !fup_ne by auto; auto|]. apply fup_eq. }
    clear s4 V4 s5 V5. intros s6 [pe3 [V6 [P1 P2]]].
    assert (P2a : r2 <> [] -> pe3 me = pj).
    { intros Nr. rewrite P2. destruct (Z.eqb_spec (zlen r2) 0) as [X|]; auto. destruct r2; [congruence|]. rewrite zlen_cons in X. pose proof (zlen_nonneg r2). lia. }
    assert (P2b : r2 = [] -> pe3 me = -1) by (intros ->; rewrite P2; reflexivity).
    apply (Main s6 pe3 (fup (fup (vLen v) me (vLen v me - knt1)) me (ln - knt2)) (lset C' me r2)).
    + exact V6.
    + apply (Mem_cut v C' pme1 me dn r2); auto; [apply M|intros; rewrite !fup_ne by auto; auto|rewrite fup_eq; auto|].
      intros Nr. rewrite P2a by auto. lia.
    + intros i N1 _. rewrite P1, !fup_ne, lset_ne by auto. auto.
    + intros Nr. rewrite P2a by auto. lia.
    + auto.
    + rewrite fup_eq. auto.
    + apply lset_eq.
    + congruence.
    + intros i Hi. destruct (Z.eq_dec i me) as [->|Ni]; [|rewrite !fup_ne by auto; lia]. rewrite fup_eq.
      rewrite (m_len _ _ _ _ (gm_mem _ _ _ _ _ _ M) me Hm Lme), ECe, zlen_app. lia.
  - destruct (Pm Ne) as [Pm1 Pm2]. rewrite <- EL in Pm2. assert (Pm' : exists dm, C' me = dm ++ rme /\ p = vPe v me + zlen dm) by (destruct Pm1 as [[_ X]|[X _]]; [auto|lia]).
    destruct Pm' as [dm [ECm Ep]]. pose proof (zlen_nonneg dm) as Zdm. pose proof (zlen_nonneg rme) as Zrm. rewrite Pm2.
    wb. eapply wp_mono with (P := fun s3 => exists pe2, Vw s3 (uLen (uPe v pe2) (fup (vLen v) me (zlen rme))) /\
        (forall i, i <> me -> pe2 i = vPe v i) /\ pe2 me = if zlen rme =? 0 then -1 else p).
    { rewrite Pm2 in V2. destruct (zlen rme =? 0).
      - awl s3 V3. eexists. split; [exact V3|]. split; [intros i Ni; vs; rewrite !fup_ne by auto; auto|]. apply fup_eq.
      - wok. eexists. split; [exact V2|]. split; [intros i Ni; vs; rewrite !fup_ne by auto; auto|]. apply fup_eq. }
    clear s1 V1 s2 V2. intros s3 [pe2 [V3 [Hpe2 Hpe2m]]]. aw s4 V4. aw s5 V5. ard. rewrite fup_eq, Hln.
    wb. eapply wp_mono with (P := fun s6 => exists pe3, Vw s6 (uLen (uPe v pe3) (fup (fup (vLen v) me (zlen rme)) e (zlen r2))) /\
        (forall i, i <> e -> pe3 i = pe2 i) /\ pe3 e = if zlen r2 =? 0 then -1 else pj).
    { rewrite Hln in V5. destruct (zlen r2 =? 0).
      - awl s6 V6. eexists. split; [exact V6|]. split; [intros i Ni; vs; rewrite !fup_ne by auto; auto|]. apply fup_eq.
      - wok. eexists. split; [exact V5|]. split; [intros i Ni; vs; rewrite !fup_ne by auto; auto|]. apply fup_eq. }
    clear s4 V4 s5 V5. intros s6 [pe3 [V6 [P1 P2]]].
    assert (P2a : r2 <> [] -> pe3 e = pj).
    { intros Nr. rewrite P2. destruct (Z.eqb_spec (zlen r2) 0) as [X|]; auto. destruct r2; [congruence|]. rewrite zlen_cons in X. pose proof (zlen_nonneg r2). lia. }
    assert (P2b : r2 = [] -> pe3 e = -1) by (intros ->; rewrite P2; reflexivity).
    assert (P3a : rme <> [] -> pe2 me = p).
    { intros Nr. rewrite Hpe2m. destruct (Z.eqb_spec (zlen rme) 0) as [X|]; auto. destruct rme; [congruence|]. rewrite zlen_cons in X. pose proof (zlen_nonneg rme). lia. }
    assert (P3b : rme = [] -> pe2 me = -1) by (intros ->; rewrite Hpe2m; reflexivity).
    apply (Main s6 pe3 (fup (fup (vLen v) me (zlen rme)) e (zlen r2)) (lset (lset C' me rme) e r2)).
    + exact V6.
    + apply (Mem_cut (uLen (uPe v pe2) (fup (vLen v) me (zlen rme))) (lset C' me rme) pme1 e dn r2); auto; vs.
      * apply (Mem_cut v C' pme1 me dm rme); auto; [apply M|intros; rewrite !fup_ne by auto; auto|rewrite fup_eq; auto|].
        intros Nr. rewrite P3a by auto. lia.
      * rewrite Hpe2; auto.
      * rewrite lset_ne; auto.
      * intros. rewrite fup_ne; auto.
      * apply fup_eq.
      * intros Nr. rewrite P2a, Hpe2 by auto. lia.
    + intros i N1 N2. rewrite P1, Hpe2, !fup_ne, !lset_ne by auto. auto.
    + intros Nr. rewrite P2a by auto. lia.
    + auto.
    + rewrite fup_eq. auto.
    + apply lset_eq.
    + intros _. rewrite P1 by auto. rewrite fup_ne, fup_eq, lset_ne, lset_eq by auto. split; [|auto]. intros Nr. rewrite P3a by auto. lia.
    + intros i Hi. destruct (Z.eq_dec i e) as [->|Ni].
      * rewrite fup_eq. rewrite (m_len _ _ _ _ (gm_mem _ _ _ _ _ _ M) e Hi Le), ECe, zlen_app. lia.
      * rewrite (fup_ne _ e) by auto. destruct (Z.eq_dec i me) as [->|Nim]; [|rewrite !fup_ne by auto; lia]. rewrite fup_eq.
        rewrite (m_len _ _ _ _ (gm_mem _ _ _ _ _ _ M) me Hm Lme), ECm, zlen_app. lia.
Qed.

(** One entry x of the list being read: the variables gathered so far grow by x if it is new. *)
Definition newb (Lm : list Z) (x : Z) : bool := posb x && negb (x =? me) && negb (inb x Lm).
Definition gath (Lm : list Z) (x : Z) : list Z := if newb Lm x then Lm ++ [x] else Lm.

Lemma ptr_read v C' pme1 Lm dead cur x q y r : GM v C' pme1 Lm dead cur -> 0 <= x < n -> ptr v C' x q (y :: r) ->
  0 <= vPe v x /\ vIw v q = y /\ 0 <= q < pme1 /\ ptr v C' x (q + 1) r.
Proof.
  intros M Hx [[L [dn [EC ->]]]|[_ X]]; [|discriminate].
  pose proof (m_cells _ _ _ _ (gm_mem _ _ _ _ _ _ M) x Hx L) as Cx. rewrite EC in Cx. apply cells_app in Cx. destruct Cx as [_ [Cy _]].
  pose proof (m_lim _ _ _ _ (gm_mem _ _ _ _ _ _ M) x Hx L) as Lim. rewrite (m_len _ _ _ _ (gm_mem _ _ _ _ _ _ M) x Hx L), EC, zlen_app, zlen_cons in Lim.
  pose proof (zlen_nonneg dn). pose proof (zlen_nonneg r).
  split; auto. split; auto. split; [lia|]. left. split; auto. exists (dn ++ [y]). rewrite <- app_assoc. split; auto.
  rewrite zlen_app, zlen_cons. change (zlen (@nil Z)) with 0. lia.
Qed.

Lemma gather_step s v C' pme1 Lm dead e knt1 ln knt2 p pj x r2 rme (Q : Z * Z * Z * Z * ast -> Prop) :
  Vw s v -> GS Lm v -> GM v C' pme1 Lm dead e -> 0 <= e < n -> ~ In e dead -> ~ In me dead ->
  ptr v C' e pj (x :: r2) -> (e <> me -> ptr v C' me p rme /\ vLen v0 me - knt1 = zlen rme) -> ln - knt2 = zlen r2 ->
  0 <= x < n -> var v0 x \/ vNv v0 x = 0 ->
  (forall s' v' C'' pme1' p' pj', Vw s' v' -> GS (gath Lm x) v' -> GM v' C'' pme1' (gath Lm x) dead e ->
     ptr v' C'' e pj' r2 -> (e <> me -> ptr v' C'' me p' rme) -> Q (p', pj', pme1', sumz (vNv v0) (gath Lm x), s')) ->
  wp (gather_one n iwlen me e knt1 ln knt2 (p, pj, pme1, sumz (vNv v0) Lm, s)) Q.
Proof.
  intros Vs G M He Nd Ndm Pj Pm Hln Hx Kx HQ.
  destruct (ptr_read _ _ _ _ _ _ _ _ _ _ M He Pj) as [Le [Ex [Hq Pj2]]].
  pose proof (m_pf _ _ _ _ (gm_mem _ _ _ _ _ _ M)) as Hpf. pose proof (m_hi _ _ _ _ (gm_mem _ _ _ _ _ _ M)) as Hhi.
  unfold gather_one. ard. rewrite Ex. cbv zeta. ard. rewrite (gs_nv _ _ G).
  pose proof (nv0_nonneg x Hx) as Nn. unfold gath, newb, posb in HQ.
  assert (Skip : (0 <? vNv v0 x) && negb (x =? me) && negb (inb x Lm) = false ->
     wp (Ok (p, pj + 1, pme1, sumz (vNv v0) Lm, s)) Q).
  { intros X. rewrite X in HQ. wok. apply (HQ s v C' pme1 p (pj + 1)); auto. intros Ne. apply Pm; auto. }
  destruct (Z.eqb_spec x me) as [Em|Nm]; cbn [orb negb andb] in *.
  { destruct (Z.ltb_spec 0 (- vNv v0 x)); [lia|]. apply Skip. rewrite andb_false_r. reflexivity. }
  destruct (inb_spec x Lm) as [Il|Nl]; cbn [orb negb andb] in *.
  { destruct (Z.ltb_spec 0 (- vNv v0 x)); [lia|]. apply Skip. rewrite andb_false_r. reflexivity. }
  destruct (Z.ltb_spec 0 (vNv v0 x)) as [L|L]; cbn [andb] in *; [|apply Skip; reflexivity]. clear Skip.
  assert (Vx : var v0 x) by (destruct Kx; [auto|lia]).
  pose proof (GS_short _ _ _ G Vx Nm Nl) as Sh. pose proof (zlen_nonneg Lm) as Zl.
  wb. eapply wp_mono with (P := fun '(pme1', p', pj', s') => exists v' C'', Vw s' v' /\ GS Lm v' /\ GM v' C'' pme1' Lm dead e /\
      vpf v' < iwlen /\ ptr v' C'' e pj' r2 /\ (e <> me -> ptr v' C'' me p' rme)).
  { rewrite (V_pf _ _ _ _ Vs). destruct (Z.leb_spec iwlen (vpf v)) as [F|F].
    - destruct (gm_stat _ _ _ _ _ _ M) as [[S1 [S2 S3]]|S]; [|lia].
      eapply (gc_ok s v C' pme1 Lm dead e knt1 ln knt2 p (pj + 1) r2 rme); eauto.
      intros s' v' C'' pme1' p' pj' V' G' M' F' P1 P2. exists v', C''. do 3 (split; [auto|]). split; [lia|]. auto.
    - wok. exists v, C'. do 4 (split; [auto|]). split; auto. intros Ne. apply Pm; auto. }
  clear s v C' pme1 pj p Vs G M Pj Pm Le Ex Hq Pj2 Hpf Hhi. intros [[[pme1 p] pj] s] [v [C' [Vs [G [M [F [Pj Pm]]]]]]].
  pose proof (m_pf _ _ _ _ (gm_mem _ _ _ _ _ _ M)) as Hpf. pose proof (m_hi _ _ _ _ (gm_mem _ _ _ _ _ _ M)) as Hhi.
  assert (Env : vNv v x = vNv v0 x).
  { rewrite (gs_nv _ _ G). destruct (Z.eqb_spec x me); [congruence|]. rewrite inb_out; auto. }
  aw s1 V1. rewrite (V_pf _ _ _ _ V1). vs. wb. eapply wIw; [exact V1|lia|vs; lia|]. intros s2 V2. vs.
  rewrite (V_pf _ _ _ _ V2). vs. pose proof (Spf _ _ _ _ (vpf v + 1) V2) as V3. wb.
  eapply (GS_take _ v); [exact G|exact V3|auto|auto|auto|auto|auto|auto|auto|auto| |auto|auto|auto|auto|].
  { vs. rewrite Env. reflexivity. }
  intros s4 nx la hd' v4 V4 G4. wok.
  replace (sumz (vNv v0) Lm + vNv v0 x) with (sumz (vNv v0) (Lm ++ [x])) by (rewrite sumz_app; simpl; lia).
  apply (HQ s4 v4 C' pme1 p pj); [exact V4|exact G4| |exact Pj|exact Pm].
  assert (Iwo : forall q, q <> vpf v -> vIw v4 q = vIw v q) by (intros q Hq; unfold v4; vs; apply fup_ne; auto).
  assert (Iwn : vIw v4 (vpf v) = x) by (unfold v4; vs; apply fup_eq).
  destruct M as [[m1 m2 m3 m4 m5 m6 m7] M2 M3 M4 M5 M6 M7 M8 M9 M10 M11].
  constructor; auto.
  - constructor; auto.
    + intros i Hi Li. apply (cells_ext (vIw v)); [|apply m2; auto]. intros q Hq. apply Iwo.
      pose proof (m3 i Hi Li). rewrite <- (m1 i Hi Li) in Hq. unfold v4 in Hq; vs. lia.
    + unfold v4; vs; lia.
    + unfold v4; vs; lia.
    + intros q Hq. destruct (Z.eq_dec q (vpf v)) as [->|Nq]; [rewrite Iwn; auto|]. rewrite Iwo by auto. apply m7. unfold v4 in Hq; vs. lia.
  - apply cells_app. split.
    + apply (cells_ext (vIw v)); auto. intros q Hq. apply Iwo. lia.
    + rewrite <- M3. simpl. auto.
  - unfold v4; vs. rewrite zlen_app, zlen_cons. change (zlen (@nil Z)) with 0. lia.
  - rewrite zlen_app, zlen_cons. change (zlen (@nil Z)) with 0. destruct M9 as [M9|M9]; [left; auto|right; unfold v4; vs; lia].
  - unfold v4; vs; lia.
Qed.

(** The whole list of e. *)
Lemma gather_list s v C' pme1 Lm dead e knt1 p pj l rme (Q : Z * Z * Z * Z * ast -> Prop) :
  Vw s v -> GS Lm v -> GM v C' pme1 Lm dead e -> 0 <= e < n -> ~ In e dead -> ~ In me dead ->
  ptr v C' e pj l -> (e <> me -> ptr v C' me p rme /\ vLen v0 me - knt1 = zlen rme) ->
  (forall x, In x l -> 0 <= x < n /\ (var v0 x \/ vNv v0 x = 0)) ->
  (forall s' v' C'' pme1' p' pj', let Lm' := fold_left gath l Lm in Vw s' v' -> GS Lm' v' -> GM v' C'' pme1' Lm' dead e ->
     ptr v' C'' e pj' [] -> (e <> me -> ptr v' C'' me p' rme) -> Q (p', pj', pme1', sumz (vNv v0) Lm', s')) ->
  wp (for_ 1 (zlen l + 1) (fun knt2 st => gather_one n iwlen me e knt1 (zlen l) knt2 st) (p, pj, pme1, sumz (vNv v0) Lm, s)) Q.
Proof.
  intros Vs G M He Nd Ndm Pj Pm Hl HQ.
  apply (wp_for_list l (fun d r '(p, pj, pme1, degme, s) => exists v C', let Lm' := fold_left gath d Lm in Vw s v /\ GS Lm' v /\
     GM v C' pme1 Lm' dead e /\ ptr v C' e pj r /\ (e <> me -> ptr v C' me p rme) /\ degme = sumz (vNv v0) Lm')).
  - lia.
  - exists v, C'. cbv zeta. simpl. do 4 (split; [auto|]). split; auto. intros Ne. apply Pm; auto.
  - assert (Pk : e <> me -> vLen v0 me - knt1 = zlen rme) by (intros Ne; apply Pm; auto).
    clear s v C' pme1 pj Vs G M Pj Pm HQ. intros d x r [[[[p1 pj] pme1] degme] s] El [v [C' [Vs [G [M [Pj [Pm1 ->]]]]]]].
    assert (In x l) as Hx by (rewrite El; apply in_app_iff; right; left; auto). destruct (Hl x Hx) as [X1 X2].
    eapply (gather_step s v C' pme1 _ dead e knt1 (zlen l) (1 + zlen d) p1 pj x r rme); eauto.
    + rewrite El, zlen_app, zlen_cons. lia.
    + intros s' v' C'' pme1' p' pj' V' G' M' P1 P2. exists v', C''. cbv zeta. rewrite fold_left_app. simpl.
      do 4 (split; [auto|]). split; auto.
  - intros [[[[p1 pj1] pme1'] degme] s'] [v' [C'' [V' [G' [M' [P1 [P2 ->]]]]]]]. eapply HQ; eauto.
Qed.

(** What gathering a list amounts to. *)
Lemma fold_gath_in l Lm x : In x (fold_left gath l Lm) <-> In x Lm \/ (In x l /\ 0 < vNv v0 x /\ x <> me).
Proof.
  revert Lm. induction l as [|y l IH]; intros Lm; simpl; [tauto|]. rewrite IH. unfold gath, newb, posb.
  destruct (Z.ltb_spec 0 (vNv v0 y)) as [L|L]; destruct (Z.eqb_spec y me) as [Em|Nm]; destruct (inb_spec y Lm) as [Il|Nl]; simpl;
    rewrite ?in_app_iff; simpl.
  all: split; [intros [A|A]; [|tauto]|intros [A|[[A|A] B]]]; try tauto.
  all: try (destruct A as [A|[A|[]]]; [tauto|subst; tauto]).
  all: try (subst x; tauto). all: try (subst x; lia).
Qed.

Lemma fold_gath_len l Lm : zlen (fold_left gath l Lm) <= zlen Lm + zlen l.
Proof.
  revert Lm. induction l as [|y l IH]; intros Lm; simpl; [change (zlen (@nil Z)) with 0; lia|].
  specialize (IH (gath Lm y)). rewrite zlen_cons. unfold gath in *. destruct (newb Lm y); [rewrite zlen_app, zlen_cons in IH|];
    change (zlen (@nil Z)) with 0 in *; lia.
Qed.

(** What the element is gathered from. *)
Definition src (x : Z) : list Z := if x =? me then V me else C x.
Definition gathered (d : list Z) : list Z := fold_left gath (flat_map src d) [].

Lemma gathered_snoc d x : gathered (d ++ [x]) = fold_left gath (src x) (gathered d).
Proof. unfold gathered. rewrite flat_map_app, fold_left_app. simpl. rewrite app_nil_r. reflexivity. Qed.

Lemma GM_cur v C' pme1 Lm dead e : GM v C' pme1 Lm dead me -> GM v C' pme1 Lm dead e.
Proof. intros M. destruct M. constructor; auto. Qed.

Lemma Eme_ok e : In e (E me) -> elt v0 e /\ e <> me.
Proof.
  intros He. destruct (g_E _ _ _ _ _ _ _ _ G0 me e Hme He) as [X|[[] _]]. split; auto. intros ->. eapply var_elt; eauto.
Qed.

Lemma src_ok e x : In e (E me ++ [me]) -> In x (src e) -> 0 <= x < n /\ (var v0 x \/ vNv v0 x = 0).
Proof.
  intros He Hx. unfold src in Hx. destruct (Z.eqb_spec e me) as [->|Ne].
  - destruct (g_V _ _ _ _ _ _ _ _ G0 me x Hme Hx) as [_ [Rx Kx]]. split; auto. destruct Kx as [K|[K|[_ []]]]; auto.
  - apply in_app_iff in He. destruct He as [He|[<-|[]]]; [|congruence]. destruct (Eme_ok e He) as [Ee _].
    split; [|apply (g_L _ _ _ _ _ _ _ _ G0 e x Ee Hx)].
    assert (0 <= e < n) by apply Ee. eapply (Mem_in n v0 C (vpf v0) e x); auto. apply (kind_elt n v0 e); auto. apply (g_kind _ _ _ _ _ _ _ _ G0); auto.
Qed.

(** The result of either way of building the element. *)
Record BR (Lm : list Z) (v : vw) (pme1 : Z) : Prop := mkBR {
  br_gs : GS Lm v;
  br_mem : Mem (uLen (uPe v (fup (vPe v) me pme1)) (fup (vLen v) me (zlen Lm))) (lset C me Lm) (vpf v);
  br_dead : forall i, In i (E me) -> vPe v i = FLIP me;
  br_pe : forall i, 0 <= i < n -> i <> me -> ~ In i (E me) ->
            (0 <= vPe v0 i -> 0 <= vPe v i) /\ (vPe v0 i < 0 -> vPe v i = vPe v0 i) /\ vLen v i = vLen v0 i;
  br_w : forall i, vW v i = if inb i (E me) then 0 else vW v0 i;
  br_hi : vpf v <= iwlen;
  br_p : 0 <= pme1;
  br_in : forall x, In x Lm <-> var v0 x /\ x <> me /\ (In x (V me) \/ exists e, In e (E me) /\ In x (C e));
  br_len : zlen Lm <= zlen (V me) + sumz (fun e => zlen (C e)) (E me)
}.

Lemma gathered_in x : In x (gathered (E me ++ [me])) <-> var v0 x /\ x <> me /\ (In x (V me) \/ exists e, In e (E me) /\ In x (C e)).
Proof.
  unfold gathered. rewrite fold_gath_in, flat_map_app, in_app_iff, in_flat_map. simpl. rewrite app_nil_r.
  replace (src me) with (V me) by (unfold src; rewrite Z.eqb_refl; auto).
  assert (Sr : (exists e, In e (E me) /\ In x (src e)) <-> (exists e, In e (E me) /\ In x (C e))).
  { split; intros [e [He Hx]]; exists e; (split; [auto|]); unfold src in *; destruct (Eme_ok e He) as [_ Ne];
      destruct (Z.eqb_spec e me); congruence || auto. }
  rewrite <- Sr. split.
  - intros [[]|[H [P N]]]. assert (In x (V me) \/ exists e, In e (E me) /\ In x (src e)) by tauto.
    split; [|tauto]. assert (K : var v0 x \/ vNv v0 x = 0).
    { destruct H as [[e [He Hx]]|Hx].
      - apply (src_ok e x); auto. apply in_app_iff; auto.
      - apply (src_ok me x); [apply in_app_iff; right; left; auto|]. unfold src. rewrite Z.eqb_refl. auto. }
    destruct K; [auto|lia].
  - intros [Vx [N H]]. right. split; [tauto|]. split; auto. apply nv0_pos; auto.
Qed.

Lemma gathered_len : zlen (gathered (E me ++ [me])) <= zlen (V me) + sumz (fun e => zlen (C e)) (E me).
Proof.
  unfold gathered. pose proof (fold_gath_len (flat_map src (E me ++ [me])) []) as F. change (zlen (@nil Z)) with 0 in F.
  rewrite flat_map_app in *. simpl in F |- *. rewrite app_nil_r, zlen_app in *.
  replace (src me) with (V me) in * by (unfold src; rewrite Z.eqb_refl; auto).
  assert (zlen (flat_map src (E me)) = sumz (fun e => zlen (C e)) (E me)); [|lia]. clear F.
  assert (H : forall e, In e (E me) -> src e = C e).
  { intros e He. unfold src. destruct (Eme_ok e He) as [_ Ne]. destruct (Z.eqb_spec e me); congruence. }
  induction (E me) as [|e l IH]; simpl; [reflexivity|]. rewrite zlen_app, H by (left; auto). rewrite IH; auto. intros; apply H; right; auto.
Qed.

Lemma in_place_BR s v (Q : Z * Z * Z * ast -> Prop) : Vw s v -> GS [] v -> E me = [] ->
  vPe v = vPe v0 -> vLen v = vLen v0 -> vW v = vW v0 -> vIw v = vIw v0 -> vhi v = vhi v0 -> vpf v = vpf v0 ->
  (forall s' v' Lm, Vw s' v' -> BR Lm v' (vPe v0 me) -> vpf v' = vpf v0 ->
     Q (vPe v0 me, vPe v0 me + zlen Lm - 1, sumz (vNv v0) Lm, s')) ->
  wp (build_in_place me s) Q.
Proof.
  intros Vs G Ee P1 P2 P3 P4 P5 P6 HQ. eapply (in_place_ok s v); eauto. intros s' v' V' Lm G' Q1 Q2 Q3 Q4 Q5 Q6 Q7.
  replace (vPe v0 me - 1 + zlen Lm) with (vPe v0 me + zlen Lm - 1) by lia. apply (HQ s' v' Lm); auto.
  pose proof me_rng as Hm.
  destruct (kind_var _ _ _ (g_kind _ _ _ _ _ _ _ _ G0 me Hm) Hme) as [Lm0 _].
  destruct (g_var _ _ _ _ _ _ _ _ G0 me Hme) as [EC [EL [_ ND]]]. rewrite Ee in EC. simpl in EC.
  assert (Zl : zlen Lm <= zlen (V me)) by apply zlen_filter.
  pose proof (zlen_nonneg Lm) as Z0.
  pose proof (m_len _ _ _ _ M0 me Hm Lm0) as Ln. rewrite EC in Ln.
  constructor; auto.
  - constructor; vs; rewrite ?Q1, ?Q2, ?Q4, ?Q5.
    + intros i Hi Li. destruct (Z.eq_dec i me) as [->|Ne]; [rewrite fup_eq, lset_eq; auto|]. rewrite fup_ne, lset_ne in * by auto. apply M0; auto.
    + intros i Hi Li. destruct (Z.eq_dec i me) as [->|Ne]; [rewrite fup_eq, lset_eq; auto|]. rewrite fup_ne, lset_ne in * by auto.
      apply (cells_ext (vIw v0)); [|apply M0; auto]. intros q Hq. apply Q6.
      pose proof (m_dis _ _ _ _ M0 i me Hi Hm Ne Li Lm0). rewrite (m_len _ _ _ _ M0 i Hi Li) in *. lia.
    + intros i Hi Li. destruct (Z.eq_dec i me) as [->|Ne]; [rewrite !fup_eq|rewrite !fup_ne in * by auto; apply M0; auto].
      pose proof (m_lim _ _ _ _ M0 me Hm Lm0). lia.
    + intros i j Hi Hj Ne Li Lj. destruct (Z.eq_dec i me) as [->|Ni]; [|destruct (Z.eq_dec j me) as [->|Nj]].
      * rewrite !fup_eq, !(fup_ne _ me _ j) in * by auto. pose proof (m_dis _ _ _ _ M0 me j Hm Hj Ne Lm0 Lj). lia.
      * rewrite !fup_eq, !(fup_ne _ me _ i) in * by auto. pose proof (m_dis _ _ _ _ M0 i me Hi Hm Ne Li Lm0). lia.
      * rewrite !fup_ne in * by auto. apply M0; auto.
    + apply M0.
    + apply M0.
    + intros q Hq. destruct (Z_le_dec (vPe v0 me) q) as [L1|L1]; [destruct (Z_lt_dec q (vPe v0 me + zlen Lm)) as [L2|L2]|].
      2, 3: rewrite Q6 by lia; apply M0; auto.
      replace q with (vPe v0 me + Z.of_nat (Z.to_nat (q - vPe v0 me))) by lia.
      rewrite (cells_nth _ _ _ _ 0 Q7) by (unfold zlen in *; lia).
      assert (In (nth (Z.to_nat (q - vPe v0 me)) Lm 0) Lm) as Hin by (apply nth_In; unfold zlen in *; lia).
      apply (gs_Lm _ _ G') in Hin. destruct Hin as [[Hin _] _]. auto.
  - rewrite Ee. intros i [].
  - intros i Hi Ne _. rewrite Q1, Q2. auto.
  - intros i. rewrite Ee. simpl. rewrite Q3. auto.
  - rewrite Q5. apply (i_hi _ _ _ _ _ _ _ _ _ _ _ _ _ _ _ _ I0).
  - intros x. rewrite Ee. split.
    + intros Hx. destruct (gs_Lm _ _ G' x Hx). unfold Lm in Hx. apply filter_In in Hx. tauto.
    + intros [Vx [N [Hx|[e [[] _]]]]]. unfold Lm. apply filter_In. split; auto. unfold posb. apply Z.ltb_lt. apply nv0_pos; auto.
  - rewrite Ee. simpl. lia.
Qed.

Lemma build_new_ok s v (Q : Z * Z * Z * ast -> Prop) : Vw s v -> GS [] v ->
  vPe v = vPe v0 -> vLen v = vLen v0 -> vW v = vW v0 -> vIw v = vIw v0 -> vhi v = vhi v0 -> vpf v = vpf v0 ->
  (forall s' v' Lm pme1, Vw s' v' -> BR Lm v' pme1 -> vpf v' = pme1 + zlen Lm ->
     Q (pme1, pme1 + zlen Lm - 1, sumz (vNv v0) Lm, s')) ->
  wp (build_new n iwlen me (zlen (E me)) s) Q.
Proof.
  intros Vs G P1 P2 P3 P4 P5 P6 HQ. unfold build_new. pose proof me_rng as Hm.
  destruct (kind_var _ _ _ (g_kind _ _ _ _ _ _ _ _ G0 me Hm) Hme) as [Lm0 _].
  destruct (g_var _ _ _ _ _ _ _ _ G0 me Hme) as [EC [EL [NDE ND]]].
  pose proof (m_len _ _ _ _ M0 me Hm Lm0) as Ln. rewrite EC, zlen_app in Ln.
  pose proof (m_pf _ _ _ _ M0) as Hpf.
  ard. rewrite P1. ard. rewrite P2, Ln. rewrite (V_pf _ _ _ _ Vs), P6.
  replace (zlen (E me) + zlen (V me) - zlen (E me)) with (zlen (V me)) by lia.
  assert (Nme : ~ In me (E me)) by (intros X; apply Eme_ok in X; tauto).
  wb. apply (wp_for_list (E me ++ [me]) (fun d r '(p, pme1, degme, s) => exists v C', let Lm := gathered d in
     let dead := filter (fun x => negb (x =? me)) d in Vw s v /\ GS Lm v /\ GM v C' pme1 Lm dead me /\ degme = sumz (vNv v0) Lm /\
     (r <> [] -> forall rme, C me = d ++ rme -> ptr v C' me p rme))).
  - rewrite zlen_app, zlen_cons. change (zlen (@nil Z)) with 0. lia.
  - exists v, C. cbv zeta. simpl. split; auto. split; auto. split; [|split; [auto|]].
    + constructor; rewrite ?P1, ?P2, ?P6; auto.
      * destruct M0. constructor; rewrite ?P1, ?P2, ?P4, ?P5, ?P6; auto.
      * exact I.
      * change (zlen (gathered [])) with 0. lia.
      * intros i [].
      * intros i Hi Li. split; auto. split; [|lia]. apply (g_pos _ _ _ _ _ _ _ _ G0); auto. lia.
      * intros i. simpl. rewrite P3. auto.
      * apply (i_hi _ _ _ _ _ _ _ _ _ _ _ _ _ _ _ _ I0).
      * lia.
    + intros _ rme Er. left. rewrite P1. split; auto. exists []. split; [rewrite Er; auto|]. change (zlen (@nil Z)) with 0. lia.
  - clear s v Vs G P1 P2 P3 P4 P5 P6. intros d x r [[[p pme1] degme] s] El [v [C' [Vs [G [M [-> Pm]]]]]].
    specialize (Pm ltac:(discriminate)).
    assert (Hx : In x (E me ++ [me])) by (rewrite El; apply in_app_iff; right; left; auto).
    set (dead := filter (fun x => negb (x =? me)) d) in *.
    assert (NDl : NoDup (E me ++ [me])).
    { apply NoDup_app_iff. split; auto. split; [constructor; [intros []|constructor]|]. intros y Y [<-|[]]. auto. }
    rewrite El in NDl. destruct (NoDup_mid _ _ _ NDl) as [Nd1 [Nd2 Nd3]].
    assert (Nmd : ~ In me dead). { unfold dead. rewrite filter_In, Z.eqb_refl. simpl. intros [_ X]; discriminate. }
    destruct (Z.ltb_spec (zlen (E me)) (1 + zlen d)) as [L|L].
    + (* me itself *)
      assert (Er : r = [] /\ x = me /\ d = E me).
      { assert (zlen (E me) + 1 = zlen d + 1 + zlen r) by (pose proof (f_equal zlen El) as Y; rewrite !zlen_app, !zlen_cons in Y; change (zlen (@nil Z)) with 0 in Y; lia).
        destruct r as [|y r]; [|pose proof (zlen_nonneg r); rewrite zlen_cons in *; lia]. apply app_inj_tail in El. destruct El; auto. }
      destruct Er as [-> [-> ->]]. specialize (Pm (V me) EC). wb. wok.
      replace (V me) with (src me) by (unfold src; rewrite Z.eqb_refl; auto).
      wb. apply (gather_list s v C' pme1 _ dead me _ p p (src me) []); auto.
      * unfold src. rewrite Z.eqb_refl. exact Pm.
      * congruence.
      * intros y Hy. apply (src_ok me y); auto.
      * clear s v Vs G M Pm C' pme1 p. intros s v C' pme1 p pj Lm Vs G M _ _. rewrite Z.eqb_refl. simpl negb. cbv iota. wok. wok.
        exists v, C'. cbv zeta. rewrite gathered_snoc. fold Lm.
        replace (filter (fun x => negb (x =? me)) (E me ++ [me])) with dead
          by (unfold dead; rewrite filter_app; simpl; rewrite Z.eqb_refl; simpl; rewrite app_nil_r; auto).
        do 4 (split; [auto|]). congruence.
    + (* one of its elements *)
      assert (Er : exists r', E me = d ++ x :: r' /\ r = r' ++ [me]).
      { destruct (exists_last_or r) as [->|[r' [y ->]]].
        - apply app_inj_tail in El. destruct El as [A _]. rewrite A in L. lia.
        - exists r'. rewrite app_comm_cons, app_assoc in El. apply app_inj_tail in El. destruct El as [A ->]. auto. }
      destruct Er as [r' [EE ->]].
      assert (HxE : In x (E me)) by (rewrite EE; apply in_app_iff; right; left; auto).
      destruct (Eme_ok x HxE) as [Ex Nxm]. assert (Rx : 0 <= x < n) by apply Ex.
      assert (ECm : C me = d ++ x :: r' ++ V me) by (rewrite EC, EE, <- app_assoc; auto).
      specialize (Pm _ ECm). destruct (ptr_read _ _ _ _ _ _ _ _ _ _ M Hm Pm) as [L2 [Ex2 [Hq Pm2]]].
      assert (Nxd : ~ In x dead) by (unfold dead; rewrite filter_In; tauto).
      pose proof (m_pf _ _ _ _ (gm_mem _ _ _ _ _ _ M)) as Hpf'. pose proof (m_hi _ _ _ _ (gm_mem _ _ _ _ _ _ M)) as Hhi'.
      destruct (gm_pe _ _ _ _ _ _ M x Rx Nxm Nxm Nxd) as [X1 [X2 X3]].
      destruct (kind_elt _ _ _ (g_kind _ _ _ _ _ _ _ _ G0 x Rx) Ex) as [Px _]. specialize (X1 Px). clear X2.
      wb. ard. rewrite Ex2. cbv zeta. ard. ard. rewrite X3, (m_len _ _ _ _ M0 x Rx Px).
      assert (Es : C x = src x) by (unfold src; destruct (Z.eqb_spec x me); congruence). rewrite Es. wok.
      wb. apply (gather_list s v C' pme1 _ dead x _ (p + 1) (vPe v x) (src x) (r' ++ V me)); auto.
      * apply GM_cur; auto.
      * left. split; auto. exists []. rewrite <- Es. rewrite (gm_C _ _ _ _ _ _ M x) by auto. split; auto. change (zlen (@nil Z)) with 0. lia.
      * intros _. split; auto. rewrite Ln, EE, !zlen_app, zlen_cons. lia.
      * intros y Hy. apply (src_ok x y); auto.
      * clear s v Vs G M Pm Pm2 C' pme1 p L2 Ex2 Hq Hpf' Hhi' X1 X3. intros s v C' pme1 p pj Lm Vs G M _ Pm. specialize (Pm Nxm).
        destruct (Z.eqb_spec x me); [congruence|]. simpl negb. cbv iota. wb. aw s1 V1. awl s2 V2. wok.
        exists (uW (uPe v (fup (vPe v) x (FLIP me))) (fup (vW v) x 0)), (lset C' x (C x)). cbv zeta. rewrite gathered_snoc. fold Lm.
        replace (filter (fun x => negb (x =? me)) (d ++ [x])) with (dead ++ [x])
          by (unfold dead; rewrite filter_app; simpl; destruct (Z.eqb_spec x me); [congruence|auto]).
        split; [exact V2|]. split; [eapply GS_ext; [exact G|reflexivity..]|]. split; [|split; [auto|]].
        { destruct M as [[m1 m2 m3 m4 m5 m6 m7] M2 M3 M4 M5 M6 M7 M8 M9 M10 M11]. rewrite FLIP_val in *.
          assert (Lx : forall i, 0 <= fup (vPe v) x (- me - 2) i -> i <> x /\ 0 <= vPe v i).
          { intros i. destruct (Z.eq_dec i x) as [->|Ni]; [rewrite fup_eq; lia|rewrite fup_ne; auto]. }
          constructor; vs; auto.
          - constructor; vs; auto.
            + intros i Hi Li. apply Lx in Li. rewrite lset_ne by tauto. apply m1; tauto.
            + intros i Hi Li. apply Lx in Li. rewrite lset_ne, fup_ne by tauto. apply m2; tauto.
            + intros i Hi Li. apply Lx in Li. rewrite fup_ne by tauto. apply m3; tauto.
            + intros i j Hi Hj Ne Li Lj. apply Lx in Li, Lj. rewrite !fup_ne by tauto. apply m4; tauto.
          - intros i Ni _. destruct (Z.eq_dec i x) as [->|Nx]; [apply lset_eq|]. rewrite lset_ne by auto. auto.
          - intros i Hi. apply in_app_iff in Hi. destruct (Z.eq_dec i x) as [->|Nx]; [apply fup_eq|]. rewrite fup_ne by auto.
            destruct Hi as [Hi|[Hi|[]]]; [auto|congruence].
          - intros i Hi Ni _ Nd. rewrite in_app_iff in Nd. assert (i <> x) by (intros ->; apply Nd; right; left; auto).
            rewrite fup_ne by auto. apply M6; auto.
          - intros i Hi Li. apply Lx in Li. apply M7; tauto.
          - intros i. destruct (Z.eq_dec i x) as [->|Nx].
            + rewrite fup_eq. destruct (inb_spec x (dead ++ [x])) as [_|Y]; auto. exfalso; apply Y; apply in_app_iff; right; left; auto.
            + rewrite fup_ne, M8 by auto. destruct (inb_spec i dead) as [Y|Y]; destruct (inb_spec i (dead ++ [x])) as [Z|Z]; auto.
              * exfalso; apply Z; apply in_app_iff; auto.
              * apply in_app_iff in Z. destruct Z as [Z|[Z|[]]]; [tauto|congruence].
          - destruct M9 as [[N1 [N2 N3]]|M9]; [left|right; auto]. split; [|split; auto].
            + intros i. destruct (Z.eq_dec i x) as [->|Nx]; [apply lset_eq|]. rewrite lset_ne by auto. auto.
            + intros i Nd. rewrite in_app_iff in Nd. assert (i <> x) by (intros ->; apply Nd; right; left; auto). rewrite fup_ne by auto.
              apply N3. tauto.
          - rewrite fup_ne by auto. auto. }
        intros _ rme Erme. rewrite ECm in Erme. rewrite <- app_assoc in Erme. apply app_inv_head in Erme. simpl in Erme. injection Erme as <-.
        unfold ptr in *. vs. rewrite fup_ne, lset_ne by auto. exact Pm.
  - clear s v Vs G P1 P2 P3 P4 P5 P6. intros [[[p pme1] degme] s] [v [C' [Vs [G [M [-> _]]]]]]. wok.
    set (Lm := gathered (E me ++ [me])) in *. pose proof (zlen_nonneg Lm) as Zl.
    assert (Ed : filter (fun x => negb (x =? me)) (E me ++ [me]) = E me).
    { rewrite filter_app. simpl. rewrite Z.eqb_refl. simpl. rewrite app_nil_r.
      assert (Fx : forall x, In x (E me) -> negb (x =? me) = true) by (intros x Hx; destruct (Eme_ok x Hx); destruct (Z.eqb_spec x me); [congruence|auto]).
      clear -Fx. induction (E me) as [|x l IH]; simpl; auto. rewrite Fx by (left; auto). rewrite IH; auto. intros; apply Fx; right; auto. }
    rewrite Ed in M. rewrite (V_pf _ _ _ _ Vs), (gm_pf _ _ _ _ _ _ M).
    apply (HQ s v Lm pme1); [auto| |apply M].
    destruct M as [[m1 m2 m3 m4 m5 m6 m7] M2 M3 M4 M5 M6 M7 M8 M9 M10 M11].
    constructor; auto.
    + constructor; vs.
      * intros i Hi Li. destruct (Z.eq_dec i me) as [->|Ne]; [rewrite fup_eq, lset_eq; auto|]. rewrite fup_ne, lset_ne in * by auto.
        rewrite <- M4 by auto. apply m1; auto.
      * intros i Hi Li. destruct (Z.eq_dec i me) as [->|Ne]; [rewrite fup_eq, lset_eq; auto|]. rewrite fup_ne, lset_ne in * by auto.
        rewrite <- M4 by auto. apply m2; auto.
      * intros i Hi Li. destruct (Z.eq_dec i me) as [->|Ne]; [rewrite !fup_eq; lia|]. rewrite !fup_ne in * by auto. pose proof (m3 i Hi Li). lia.
      * intros i j Hi Hj Ne Li Lj. destruct (Z.eq_dec i me) as [->|Ni]; [|destruct (Z.eq_dec j me) as [->|Nj]].
        -- rewrite !fup_eq, !(fup_ne _ me _ j) in * by auto. pose proof (m3 j Hj Lj). lia.
        -- rewrite !fup_eq, !(fup_ne _ me _ i) in * by auto. pose proof (m3 i Hi Li). lia.
        -- rewrite !fup_ne in * by auto. apply m4; auto.
      * lia.
      * auto.
      * auto.
    + lia.
    + apply gathered_in.
    + apply gathered_len.
Qed.

End Build.
