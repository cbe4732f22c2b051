(** Claim C85: the ordering inside setup (src/amd_2.c) is a minimum degree ordering.  In every state its main loop can
    reach, the variable it takes as pivot has the smallest recorded degree of all the variables that are left; before
    the first pivot the recorded degrees are the true numbers of neighbours in the graph of A + A'; each pivot
    eliminates at least one variable, so there are at most n of them.  That the later, updated degrees bound the true
    ones is not stated here. *)
From Coq Require Import ZArith List Lia Bool.
From RecordUpdate Require Import RecordUpdate.
From Verif Require Import Res Lists Spec SpecLink MAmd AmdBase AmdPre AmdWalk AmdGraph AmdView AmdLists AmdInv AmdBuild AmdRestore AmdPivot AmdInit AmdOrder Demo.
Import ListNotations.
Open Scope Z_scope.
Open Scope res_scope.

(** ** Specification *)

(** What AMD_2 is given (src/amd_2.c:66-110): an undirected graph without loops, N v being the neighbours of v; the
    list of v starts at Pe[v] = st v and has Len[v] entries, the lists follow each other in Iw[0 .. pfree-1], and at
    least n entries of Iw are free. *)
Record given (n iwlen : Z) (N : Z -> list Z) (st iw : Z -> Z) (s : ast) : Prop := mkGiven {
  gv_n : 0 <= n;
  gv_rng : forall v u, 0 <= v < n -> In u (N v) -> 0 <= u < n /\ u <> v;
  gv_nd : forall v, 0 <= v < n -> NoDup (N v);
  gv_sym : forall v u, 0 <= v < n -> 0 <= u < n -> In u (N v) -> In v (N u);
  gv_st : forall v, 0 <= v < n -> 0 <= st v /\ st v + zlen (N v) <= pfree s;
  gv_dis : forall v u, 0 <= v < n -> 0 <= u < n -> v < u -> st v + zlen (N v) <= st u;
  gv_pf : 0 <= pfree s /\ pfree s + n <= iwlen;
  gv_cells : forall v, 0 <= v < n -> cells iw (st v) (N v);
  gv_iw : forall q, 0 <= q < pfree s -> 0 <= iw q < n;
  gv_sum : sumz (fun v => zlen (N v)) (zr 0 n) <= pfree s;
  gv_Pe : is_vec (aPe s) n st;
  gv_Len : is_vec (aLen s) n (fun v => zlen (N v));
  gv_Iw : is_pre (aIw s) iwlen (pfree s) iw;
  gv_zero : nel s = 0 /\ mindeg s = 0 /\ lemax s = 0 /\ ndense s = 0;
  gv_z1 : zlen (aNv s) = n; gv_z2 : zlen (aNext s) = n; gv_z3 : zlen (aLast s) = n; gv_z4 : zlen (aHead s) = n;
  gv_z5 : zlen (aElen s) = n; gv_z6 : zlen (aDeg s) = n; gv_z7 : zlen (aW s) = n
}.

(** A variable that is still to be eliminated (src/amd_2.c:170-200): neither absorbed (Nv = 0) nor an element
    (Elen < -1) nor set aside as dense (Elen = -1). *)
Definition pending (n : Z) (s : ast) (i : Z) : Prop :=
  0 <= i < n /\ exists nv el, rd (aNv s) i = Ok nv /\ nv <> 0 /\ rd (aElen s) i = Ok el /\ 0 <= el.
Definition degree_is (s : ast) (i d : Z) : Prop := rd (aDeg s) i = Ok d.

(** The states at the head of the main loop, src/amd_2.c:737. *)
Inductive reached (n iwlen dense : Z) (aggressive : bool) (s0 : ast) : ast -> Prop :=
| r_init s : amd2_init n dense s0 = Ok s -> reached n iwlen dense aggressive s0 s
| r_next s s' : reached n iwlen dense aggressive s0 s -> nel s < n -> pivot n iwlen aggressive s = Ok s' -> reached n iwlen dense aggressive s0 s'.

(** ** Proofs *)
Section MinDegree.
Variables (n iwlen dense : Z) (aggressive : bool) (N : Z -> list Z) (st iw : Z -> Z) (s0 : ast).
Hypothesis G : given n iwlen N st iw s0.

Lemma pending_var s v i : Vw n iwlen s v -> pending n s i <-> var n v i.
Proof.
  intros V. unfold pending, var. split.
  - intros [Hi [nv [el [A [B [C D]]]]]]. rewrite (proj2 (V_Nv _ _ _ _ V)) in A by auto. rewrite (proj2 (V_Elen _ _ _ _ V)) in C by auto.
    injection A as ->. injection C as ->. auto.
  - intros [Hi [A B]]. split; auto. exists (vNv v i), (vElen v i). split; [apply (V_Nv _ _ _ _ V); auto|]. split; auto. split; [apply (V_Elen _ _ _ _ V); auto|auto].
Qed.

(** The initialisation, with what it leaves behind. *)
Lemma init_lists (Q : ast -> Prop) :
  (forall s v w f dl, Vw n iwlen s v -> LOOP n iwlen (pfree s0) v -> IL n (pfree s0) dense N st iw w f n v dl -> Q s) -> wp (amd2_init n dense s0) Q.
Proof.
  intros HQ. destruct G as [Hn N1 N2 N3 St Sd [P0 P1] Cl Ir Ss H1 H2 H3 [H5 [H6 [H7 H8]]] Z1 Z2 Z3 Z4 Z5 Z6 Z7].
  assert (Hpf : 0 <= pfree s0 <= iwlen) by lia.
  assert (H4 : pfree s0 = pfree s0) by reflexivity.
  unfold amd2_init. wb. set (pf := pfree s0) in *. change (pfree s0 = pf) in H4. clearbody pf.
  set (dgf := fun x => zlen (N x)) in *. revert H1 H2 H3 H4 H5 H6 H7 H8 Z1 Z2 Z3 Z4 Z5 Z6 Z7. generalize s0 as s. clear G s0. intros s H1 H2 H3 H4 H5 H6 H7 H8 Z1 Z2 Z3 Z4 Z5 Z6 Z7.
  apply (wp_for_le (fun i s => is_vec (aPe s) n st /\ is_vec (aLen s) n dgf /\ is_pre (aIw s) iwlen pf iw /\ pfree s = pf /\ nel s = 0 /\ mindeg s = 0 /\ lemax s = 0 /\ ndense s = 0 /\
     is_pre (aNv s) n i (fun _ => 1) /\ is_pre (aNext s) n i (fun _ => EMPTY) /\ is_pre (aLast s) n i (fun _ => EMPTY) /\ is_pre (aHead s) n i (fun _ => EMPTY) /\
     is_pre (aElen s) n i (fun _ => 0) /\ is_pre (aDeg s) n i dgf /\ is_pre (aW s) n i (fun _ => 1))).
  - lia.
  - do 8 (split; [auto|]). do 6 (split; [apply is_pre_0; auto|]). apply is_pre_0; auto.
  - clear. intros i s Hi [H1 [H2 [H3 [H4 [H5 [H6 [H7 [H8 [P1 [P2 [P3 [P4 [P5 [P6 P7]]]]]]]]]]]]]]. unfold init_one, sLast, sHead, sNext, sNv, sW, sElen, sDeg.
    wb. wb. eapply is_pre_wr_next; [exact P3|lia|reflexivity|]. intros a3 Q3. wok. wb. wb.
    eapply is_pre_wr_next; [exact P4|lia|reflexivity|]. intros a4 Q4. wok. wb. wb.
    eapply is_pre_wr_next; [exact P2|lia|reflexivity|]. intros a2 Q2. wok. wb. wb.
    eapply is_pre_wr_next; [exact P1|lia|reflexivity|]. intros a1 Q1. wok. wb. wb.
    eapply is_pre_wr_next; [exact P7|lia|reflexivity|]. intros a7 Q7. wok. wb. wb.
    eapply is_pre_wr_next; [exact P5|lia|reflexivity|]. intros a5 Q5. wok. wb.
    eapply is_vec_rd; [exact H2|lia|]. wb.
    eapply is_pre_wr_next; [exact P6|lia|reflexivity|]. intros a6 Q6. wok. simpl. do 14 (split; [assumption|]). assumption.
  - clear H1 H2 H3 H4 H5 H6 H7 H8 Z1 Z2 Z3 Z4 Z5 Z6 Z7 s. intros s [H1 [H2 [H3 [H4 [H5 [H6 [H7 [H8 [Q1 [Q2 [Q3 [Q4 [Q5 [Q6 Q7]]]]]]]]]]]]]].
    set (v := mkVw st iw dgf (fun _ => 1) (fun _ => EMPTY) (fun _ => EMPTY) (fun _ => EMPTY) (fun _ => 0) dgf (fun _ => 1) pf pf 0 0 0 0 0).
    assert (Vs : Vw n iwlen (s <| wflg := 0 |>) v) by (constructor; auto).
    wb. eapply clear_flag_ok; [auto|exact Vs| | |]; vs.
    + intros; unfold v; vs; lia.
    + unfold v; vs; lia.
    + intros s1 w f V1 Hf Hw. clear s H1 H2 H3 H4 H5 H6 H7 H8 Q1 Q2 Q3 Q4 Q5 Q6 Q7 Vs.
      assert (W0 : forall x, 0 <= x < n -> 1 <= w x < f) by (intros x Hx; specialize (Hw x Hx); unfold v in Hw; vs; lia).
      apply (wp_for_le (fun i s => exists v dl, Vw n iwlen s v /\ IL n pf dense N st iw w f i v dl)).
      * lia.
      * exists (uwf (uW v w) f), (fun _ => []). split; auto. constructor; unfold v; vs; auto; try (intros x Hx; rewrite cur_out by lia; auto; fail).
        -- repeat split; auto.
        -- constructor; simpl; try tauto; auto. intros; constructor.
        -- intros x d. split; [intros []|lia].
      * clear s1 V1 HQ. intros i s Hi [v1 [dl [Vs I]]]. eapply init_list_ok; eauto.
      * intros s' [v' [dl' [V' I']]]. apply (HQ s' v' w f dl'); auto.
        exists N, (fun _ => []), N, (fun i => i), dl'. split; [eapply IL_done; eauto|]. destruct (il_iw _ _ _ _ _ _ _ _ _ _ _ I') as [_ [_ [_ [_ [-> _]]]]]. lia.
Qed.

Lemma reached_LOOP s : reached n iwlen dense aggressive s0 s -> exists v, Vw n iwlen s v /\ LOOP n iwlen (pfree s0) v.
Proof.
  intros R. induction R as [s E|s s' R [v [V L]] Ne E].
  - assert (W : wp (amd2_init n dense s0) (fun s => exists v, Vw n iwlen s v /\ LOOP n iwlen (pfree s0) v)) by (apply init_lists; eauto).
    rewrite E in W. exact W.
  - assert (W : wp (pivot n iwlen aggressive s) (fun s => exists v, Vw n iwlen s v /\ LOOP n iwlen (pfree s0) v)).
    { eapply (pivot_ok n iwlen (pfree s0)); eauto; [apply G|]. rewrite <- (V_nel _ _ _ _ V). auto. }
    rewrite E in W. exact W.
Qed.

Lemma LOOP_pos v x : LOOP n iwlen (pfree s0) v -> var n v x -> 0 < vNv v x.
Proof.
  intros [C [E [V [rep [dl [I0 Wf]]]]]] Vx. pose proof (i_g _ _ _ _ _ _ _ _ _ _ _ _ _ _ _ _ I0) as G0.
  destruct (Z_lt_dec (vNv v x) 0) as [L|L]; [|destruct Vx as [_ [X _]]; lia].
  destruct (g_neg _ _ _ _ _ _ _ _ G0 x ltac:(apply Vx) L) as [->|[]]. destruct Vx; lia.
Qed.

Lemma LOOP_some v : LOOP n iwlen (pfree s0) v -> vnel v < n -> exists x, var n v x.
Proof.
  intros [C [E [V [rep [dl [I0 Wf]]]]]] Hn. destruct (existsb (varb v) (zr 0 n)) eqn:Eb.
  - apply existsb_exists in Eb. destruct Eb as [x [Hx Bx]]. apply in_zr in Hx. exists x. destruct (varb_spec n v x Hx); [auto|discriminate].
  - exfalso. pose proof (i_tot _ _ _ _ _ _ _ _ _ _ _ _ _ _ _ _ I0) as T. rewrite wsum_none in T; [lia|]. intros i Vi. exfalso.
    assert (X : existsb (varb v) (zr 0 n) = true); [|congruence]. apply existsb_exists. exists i. split; [apply in_zr; apply Vi|].
    destruct (varb_spec n v i ltac:(apply Vi)); auto.
Qed.

(** The pivot has the smallest recorded degree. *)
Theorem C85_minimum s : reached n iwlen dense aggressive s0 s -> nel s < n ->
  exists me d s1, find_pivot n s = Ok (me, s1) /\ pending n s me /\ degree_is s me d /\ 0 <= d < n /\
    forall i d', pending n s i -> degree_is s i d' -> d <= d'.
Proof.
  intros R Ne. destruct (reached_LOOP s R) as [v [Vs L]]. rewrite (V_nel _ _ _ _ Vs) in Ne. destruct (LOOP_some v L Ne) as [x0 Vx0].
  pose proof (fun x => LOOP_pos v x L) as Pos. destruct L as [C [E [V [rep [dl [I0 Wf]]]]]]. pose proof (i_d _ _ _ _ _ _ _ _ _ _ _ _ _ _ _ _ I0) as D0.
  assert (W : wp (find_pivot n s) (fun '(me, s1) => exists d, pending n s me /\ degree_is s me d /\ 0 <= d < n /\ forall i d', pending n s i -> degree_is s i d' -> d <= d')).
  { eapply (find_pivot_ok n iwlen s v dl); [exact Vs|apply D0|apply D0| | |].
    { intros d x Hx. apply (d_dl _ _ _ _ _ D0) in Hx. destruct Hx as [Vx [Px <-]]. split; [apply D0; auto|apply D0; auto]. }
    { exists (vDeg v x0), x0. apply (d_dl _ _ _ _ _ D0). auto. }
    intros me r d s1 la hd' v1 Hd Edl Hlow _ _. assert (Hme : In me (dl d)) by (rewrite Edl; left; auto).
    apply (d_dl _ _ _ _ _ D0) in Hme. destruct Hme as [Vme [Pme Dme]]. exists d. split; [apply (pending_var s v); auto|].
    split. { unfold degree_is. rewrite (proj2 (V_Deg _ _ _ _ Vs)) by apply Vme. congruence. }
    split. { pose proof (proj1 (d_md _ _ _ _ _ D0)). lia. }
    intros i d' Hp Hd'. apply (pending_var s v) in Hp; auto. unfold degree_is in Hd'. rewrite (proj2 (V_Deg _ _ _ _ Vs)) in Hd' by apply Hp. injection Hd' as <-.
    destruct (Z.le_gt_cases d (vDeg v i)) as [|X]; auto. exfalso. assert (Y : In i (dl (vDeg v i))) by (apply (d_dl _ _ _ _ _ D0); auto).
    rewrite (Hlow _ X) in Y. destruct Y. }
  apply wp_exists in W. destruct W as [[me s1] [Ef [d H]]]. exists me, d, s1. tauto.
Qed.

(** Every pivot succeeds and eliminates at least one variable; the sizes of the pending ones add up to what is left. *)
Theorem C85_progress s : reached n iwlen dense aggressive s0 s ->
  nel s <= n /\
  (exists size, (forall i, 0 <= i < n -> (pending n s i -> rd (aNv s) i = Ok (size i) /\ 1 <= size i) /\ (~ pending n s i -> size i = 0)) /\
     sumz size (zr 0 n) = n - nel s) /\
  (nel s < n -> exists s', pivot n iwlen aggressive s = Ok s' /\ nel s < nel s').
Proof.
  intros R. destruct (reached_LOOP s R) as [v [Vs L]]. pose proof (fun x => LOOP_pos v x L) as Pos. pose proof L as L'.
  destruct L' as [C [E [V [rep [dl [I0 Wf]]]]]]. pose proof (i_tot _ _ _ _ _ _ _ _ _ _ _ _ _ _ _ _ I0) as T. rewrite (V_nel _ _ _ _ Vs).
  assert (T0 : 0 <= wsum n v (fun _ => true)) by (apply sumz_nonneg; intros x _; destruct (varb v x && true); lia).
  split; [lia|]. split.
  - exists (fun i => if varb v i && true then Z.abs (vNv v i) else 0). split; [|exact T]. intros i Hi. cbv beta. rewrite (pending_var s v i Vs).
    rewrite andb_true_r. destruct (varb_spec n v i Hi) as [Y|Y]; split; intros X; try tauto.
    rewrite (proj2 (V_Nv _ _ _ _ Vs)) by auto. specialize (Pos i X). rewrite Z.abs_eq by lia. split; [auto|lia].
  - intros Ne. assert (W : wp (pivot n iwlen aggressive s) (fun s' => vnel v < nel s')).
    { eapply (pivot_ok n iwlen (pfree s0)); eauto; [apply G|]. intros s' v' V' _ X. rewrite (V_nel _ _ _ _ V'). auto. }
    apply wp_exists in W. exact W.
Qed.

(** Before the first pivot: the pending variables are those with a neighbour and at most [dense] of them, and the
    recorded degree is the number of neighbours. *)
Theorem C85_first : exists s, amd2_init n dense s0 = Ok s /\ reached n iwlen dense aggressive s0 s /\
  (forall i, pending n s i <-> 0 <= i < n /\ 0 < zlen (N i) <= dense) /\
  (forall i, 0 <= i < n -> degree_is s i (zlen (N i))) /\
  nel s = n - zlen (filter (fun i => (0 <? zlen (N i)) && (zlen (N i) <=? dense)) (zr 0 n)) /\
  (nel s < n -> exists me s1, find_pivot n s = Ok (me, s1) /\ 0 <= me < n /\ 0 < zlen (N me) <= dense /\
     forall i, 0 <= i < n -> 0 < zlen (N i) <= dense -> zlen (N me) <= zlen (N i)).
Proof.
  assert (W : wp (amd2_init n dense s0) (fun s => (forall i, pending n s i <-> 0 <= i < n /\ 0 < zlen (N i) <= dense) /\
    (forall i, 0 <= i < n -> degree_is s i (zlen (N i))) /\ nel s = n - zlen (filter (fun i => (0 <? zlen (N i)) && (zlen (N i) <=? dense)) (zr 0 n)))).
  { apply init_lists. intros s v w f dl Vs _ I. split; [|split].
    - intros i. rewrite (pending_var s v i Vs). unfold var. pose proof (zlen_nonneg (N i)).
      assert (K : 0 <= i < n -> cur dense N n i = kd dense N i) by (intros; unfold cur; destruct (Z.ltb_spec i n); auto; lia).
      split; intros [Hi X]; (split; [exact Hi|]); rewrite (il_nv _ _ _ _ _ _ _ _ _ _ _ I), (il_el _ _ _ _ _ _ _ _ _ _ _ I), K in * by auto; unfold kd, dg in *;
        destruct (Z.eqb_spec (zlen (N i)) 0); destruct (Z.ltb_spec dense (zlen (N i))); simpl in *; lia.
    - intros i Hi. unfold degree_is. rewrite (proj2 (V_Deg _ _ _ _ Vs)) by auto. rewrite (il_dg _ _ _ _ _ _ _ _ _ _ _ I) by auto. reflexivity.
    - rewrite (V_nel _ _ _ _ Vs), (il_nel _ _ _ _ _ _ _ _ _ _ _ I). rewrite <- (sumz_ones (filter _ _)), sumz_filter.
      assert (Sn : sumz (fun _ => 1) (zr 0 n) = n) by (rewrite sumz_ones, zlen_zr; pose proof (gv_n _ _ _ _ _ _ G); lia).
      enough (sumz (fun x => if kd dense N x =? 2 then 0 else 1) (zr 0 n) + sumz (fun x => if (0 <? zlen (N x)) && (zlen (N x) <=? dense) then 1 else 0) (zr 0 n) = sumz (fun _ => 1) (zr 0 n)) by lia.
      rewrite <- sumz_plus. apply sumz_ext. intros x _. unfold kd, dg. pose proof (zlen_nonneg (N x)).
      destruct (Z.eqb_spec (zlen (N x)) 0); destruct (Z.ltb_spec dense (zlen (N x))); destruct (Z.ltb_spec 0 (zlen (N x))); destruct (Z.leb_spec (zlen (N x)) dense); simpl; lia. }
  apply wp_exists in W. destruct W as [s [E [P [D Nl]]]]. assert (R : reached n iwlen dense aggressive s0 s) by (apply r_init; auto).
  exists s. do 5 (split; [auto|]). intros Ne. destruct (C85_minimum s R Ne) as [me [d [s1 [F [Pm [Dm [_ M]]]]]]]. exists me, s1. split; auto.
  apply P in Pm. destruct Pm as [Rm Km]. split; auto. split; auto. intros i Hi Ki. pose proof (D me Rm) as Dm'. unfold degree_is in Dm, Dm'. rewrite Dm in Dm'. injection Dm' as ->.
  apply (M i); auto. apply P. auto.
Qed.
End MinDegree.

(** The whole of AMD_2 runs through such states to one where nothing is left. *)
Lemma given_run n iwlen alpha aggressive N st iw s0 : given n iwlen N st iw s0 -> exists s', AMD_2 n iwlen alpha aggressive s0 = Ok s'.
Proof.
  intros [Hn N1 N2 N3 St Sd [P0 P1] Cl Ir Ss H1 H2 H3 [H5 [H6 [H7 H8]]] Z1 Z2 Z3 Z4 Z5 Z6 Z7].
  assert (W : wp (AMD_2 n iwlen alpha aggressive s0) (fun _ => True)) by (apply (AMD_2_ok n iwlen (pfree s0) alpha aggressive N st iw s0); auto).
  apply wp_exists in W. destruct W as [s' [E _]]. eauto.
Qed.

Theorem C85_whole n iwlen alpha aggressive N st iw s0 s' : given n iwlen N st iw s0 -> AMD_2 n iwlen alpha aggressive s0 = Ok s' ->
  exists s, reached n iwlen (Z.min n (Z.max 16 alpha)) aggressive s0 s /\ nel s = n /\ post_phase n s = Ok s'.
Proof.
  intros G E. set (dense := Z.min n (Z.max 16 alpha)). unfold AMD_2 in E. cbv zeta in E. fold dense in E.
  destruct (C85_first n iwlen dense aggressive N st iw s0 G) as [s [Ei [R [_ [_ [Nl _]]]]]]. rewrite Ei in E. cbn [bind] in E.
  assert (N0 : 0 <= nel s).
  { rewrite Nl. rewrite <- sumz_ones, sumz_filter. assert (Sn : sumz (fun _ => 1) (zr 0 n) = n) by (rewrite sumz_ones, zlen_zr; pose proof (gv_n _ _ _ _ _ _ G); lia).
    enough (sumz (fun x => if (0 <? zlen (N x)) && (zlen (N x) <=? dense) then 1 else 0) (zr 0 n) <= sumz (fun _ => 1) (zr 0 n)) by lia.
    apply sumz_le. intros x _. destruct ((0 <? zlen (N x)) && (zlen (N x) <=? dense)); lia. }
  assert (W : wp (pivots n iwlen aggressive s) (fun s1 => reached n iwlen dense aggressive s0 s1 /\ nel s1 = n)).
  { unfold pivots. apply (wp_while (fun s1 => reached n iwlen dense aggressive s0 s1) (fun s1 => n - nel s1)); auto.
    - unfold fuel. lia.
    - intros s1 R1. destruct (C85_progress n iwlen dense aggressive N st iw s0 G s1 R1) as [L [_ Pr]]. split; [lia|]. wok.
      destruct (Z.ltb_spec (nel s1) n) as [X|X].
      + destruct (Pr X) as [s2 [E2 L2]]. rewrite E2. wok. assert (R2 : reached n iwlen dense aggressive s0 s2) by (eapply r_next; eauto). split; [exact R2|lia].
      + split; [auto|lia]. }
  apply wp_exists in W. destruct W as [s1 [E1 [R1 N1]]]. rewrite E1 in E. cbn [bind] in E. exists s1. auto.
Qed.

(** ** From AMD_order: the graph is that of A + A' *)

Lemma AMD_1_run n nz Ap Ai ap ai (Hn : 0 <= n) (Hap0 : ap 0 = 0) (Hapn : ap n = nz) (Hmono : forall j, 0 <= j < n -> ap j <= ap (j + 1))
  (HAp : forall j, 0 <= j <= n -> rd Ap j = Ok (ap j)) (HAi : forall k, 0 <= k < nz -> rd Ai k = Ok (ai k)) (Hrows : forall k, 0 <= k < nz -> 0 <= ai k < n)
  (Hsort : forall j k, 0 <= j < n -> ap j <= k -> k + 1 < ap (j + 1) -> ai k < ai (k + 1)) alpha aggressive P Pinv Len slen l0 (Q : arr Z -> Prop) :
  zlen P = n -> zlen Pinv = n -> GOOD n ap ai l0 -> is_vec Len n (fun v => zlen (nb l0 v)) -> start l0 n + 7 * n <= slen ->
  (forall N st iw s s', given n (slen - 6 * n) N st iw s -> (forall v u, 0 <= v < n -> 0 <= u < n -> In u (N v) <-> u <> v /\ (entry ap ai u v \/ entry ap ai v u)) ->
     AMD_2 n (slen - 6 * n) alpha aggressive s = Ok s' -> Q (aLast s')) ->
  wp (AMD_1 n alpha aggressive Ap Ai P Pinv Len slen) Q.
Proof.
  intros LP LPi G0 VL Hs HQ. unfold AMD_1. cbv zeta. set (iwlen := slen - 6 * n) in *.
  assert (LT : zlen (malloc Z n) = n) by (apply zlen_malloc; auto).
  destruct (walk_ok n nz Ap Ai ap ai Hn Hap0 Hapn Hmono HAp HAi Hrows Hsort (malloc Z n) LT) as [Tp' [l [LT' [HW [PO [ND IN]]]]]].
  assert (G : GOOD n ap ai l) by (split; auto).
  assert (EL : forall v, 0 <= v < n -> zlen (nb l0 v) = zlen (nb l v)) by (intros v Hv; eapply GOOD_len; eauto).
  assert (ES : start l0 n = start l n). { apply sumz_ext. intros v Hv. apply in_zr in Hv. auto. }
  pose proof (start_bound n nz ap ai Hn Hap0 Hapn Hmono Hrows l G) as SB.
  assert (Hiw : start l n + n <= iwlen) by (unfold iwlen; lia).
  wb. apply (wp_for_le (fun j '(Pe, Sp, pf) => is_pre Pe n j (start l) /\ is_pre Sp n j (start l) /\ pf = start l j)); auto.
  { split; [apply is_pre_0; auto|]. split; [apply is_pre_0; auto|reflexivity]. }
  { intros j [[Pe Sp] pf] Hj [W1 [W2 ->]]. wb. apply (is_pre_wr_next _ _ _ _ _ _ W1); auto. intros Pe' W1'. wb. apply (is_pre_wr_next _ _ _ _ _ _ W2); auto. intros Sp' W2'.
    wb. apply (is_vec_rd _ _ _ _ _ VL Hj). wok. split; auto. split; auto. rewrite start_step, EL by lia. reflexivity. }
  intros [[Pe Sp] pf] [W1 [W2 ->]]. apply is_pre_vec in W1. apply is_pre_vec in W2. rewrite HW. wb. wb.
  eapply wp_mono.
  { apply (store_ok n iwlen l PO ltac:(lia) l [] (malloc Z iwlen, Sp) eq_refl). split; [apply zlen_malloc; lia|]. split.
    - eapply is_vec_ext; [exact W2|]. intros v Hv. cbv beta. change (zlen (nb [] v)) with 0. lia.
    - intros v t Hv Ht. change (zlen (nb [] v)) with 0 in Ht. lia. }
  intros [Iw Sp'] [LI [VSp HI]]. wok.
  assert (RI : forall q, 0 <= q < start l n -> exists v t, 0 <= v < n /\ 0 <= t < zlen (nb l v) /\ q = start l v + t).
  { intros q Hq. destruct (mono_find (start l) n q Hn) as [v [Hv Hq']]; [change (start l 0) with 0; auto|]. rewrite start_step in Hq' by lia.
    exists v, (q - start l v). split; auto. split; lia. }
  match goal with |- wp (bind (AMD_2 _ _ _ _ ?x) _) _ => set (sg := x) end.
  assert (GV : given n iwlen (nb l) (start l) (get 0 Iw) sg).
  { constructor; auto; try reflexivity.
    - intros v u Hv Hu. pose proof (GOOD_rng n ap ai l v u G Hu) as Ru. split; auto. apply IN in Hu; [tauto|auto|auto].
    - intros v u Hv Hu H. apply IN; auto. apply IN in H; auto. destruct H as [H1 H2]. split; [congruence|tauto].
    - intros v Hv. change (pfree sg) with (start l n). rewrite <- start_step by lia. split; [change 0 with (start l 0); apply start_mono; lia|apply start_mono; lia].
    - intros v u Hv Hu L. rewrite <- start_step by lia. apply start_mono; lia.
    - change (pfree sg) with (start l n). lia.
    - intros v Hv. apply cells_from. intros t Ht. apply get_rd. apply HI; auto.
    - change (pfree sg) with (start l n). intros q Hq. destruct (RI q Hq) as [v [t [Hv [Ht ->]]]]. rewrite (get_rd 0 _ _ _ (HI v t Hv Ht)). apply (GOOD_rng n ap ai l v _ G). apply nth_In. unfold zlen in Ht. lia.
    - destruct VL as [A B]. split; auto. intros v Hv. change (aLen sg) with Len. rewrite B by auto. rewrite EL; auto.
    - split; auto. change (pfree sg) with (start l n). intros q Hq. change (aIw sg) with Iw. destruct (RI q Hq) as [v [t [Hv [Ht ->]]]]. rewrite (get_rd 0 _ _ _ (HI v t Hv Ht)). apply HI; auto.
    - apply VSp.
    }
  destruct (given_run n iwlen alpha aggressive _ _ _ _ GV) as [s' E]. rewrite E. wok. eapply HQ; eauto.
Qed.

Theorem C85_order mem alpha aggressive n nz Ap Ai P st P' : csc_pattern n n Ap Ai nz -> zlen P = n -> 0 < n ->
  AMD_order mem alpha aggressive n Ap Ai P = Ok (st, P') -> st <> AMD_OUT_OF_MEMORY ->
  exists iwlen N start iw s0 s', given n iwlen N start iw s0 /\
    (forall v u, 0 <= v < n -> 0 <= u < n -> In u (N v) <-> u <> v /\ (has_entry Ap Ai u v \/ has_entry Ap Ai v u)) /\
    AMD_2 n iwlen alpha aggressive s0 = Ok s' /\ P' = aLast s'.
Proof.
  intros HP LP Hn0 E Hst.
  enough (W : wp (AMD_order mem alpha aggressive n Ap Ai P) (fun '(st, P') => st <> AMD_OUT_OF_MEMORY ->
    exists iwlen N start iw s0 s', given n iwlen N start iw s0 /\
    (forall v u, 0 <= v < n -> 0 <= u < n -> In u (N v) <-> u <> v /\ (has_entry Ap Ai u v \/ has_entry Ap Ai v u)) /\
    AMD_2 n iwlen alpha aggressive s0 = Ok s' /\ P' = aLast s')) by (rewrite E in W; apply W; auto).
  clear E Hst st P'. unfold AMD_order. assert (Hn : 0 <= n) by lia. pose proof (wf_pattern n nz Ap Ai Hn HP) as Hz.
  destruct (Z.ltb_spec n 0); [lia|]. destruct (Z.eqb_spec n 0) as [E0|E0]; [lia|].
  wb. rewrite (cp_last _ _ _ _ _ HP). wok. destruct (Z.ltb_spec nz 0); [lia|]. fold SMAX.
  destruct (Z.leb_spec SMAX n) as [B1|B1]; [|destruct (Z.leb_spec SMAX nz) as [B2|B2]]; cbn [orb]; try (wok; congruence).
  destruct (C37_valid n n Ap Ai (pattern_readable n nz Ap Ai Hn HP)) as [r [Er [R1 [R2 R3]]]].
  assert (WF : well_formed n n Ap Ai) by (split; auto; split; auto; exists nz; auto).
  assert (Rr : r = AMD_OK /\ sorted_columns n Ap Ai \/ r = AMD_OK_BUT_JUMBLED).
  { destruct (Z.eq_dec r AMD_OK) as [->|N1]; [left; split; auto; apply R2; auto|]. right. apply R3. split; auto. tauto. }
  assert (NI : r =? AMD_INVALID = false) by (destruct Rr as [[-> _]| ->]; reflexivity).
  wb. rewrite Er. wok. rewrite NI.
  destruct (mem 0%nat && mem 1%nat) eqn:M1; cbn [negb]; [|wok; congruence].
  cbv zeta. destruct ((r =? AMD_OK_BUT_JUMBLED) && negb (mem 2%nat && mem 3%nat)) eqn:M2; [wok; congruence|].
  assert (Lm : zlen (malloc Z n) = n) by (apply zlen_malloc; auto).
  assert (CONT : forall Cp Ci Len Pinv nz', csc_pattern n n Cp Ci nz' -> sorted_columns n Cp Ci -> 0 <= nz' <= nz -> zlen Len = n -> zlen Pinv = n ->
    (forall u v, 0 <= u < n -> 0 <= v < n -> (has_entry Cp Ci u v \/ has_entry Cp Ci v u) <-> (has_entry Ap Ai u v \/ has_entry Ap Ai v u)) ->
    wp ('(nzaat, Len, P) <- AMD_aat n Cp Ci Len P ;;
          let slen := nzaat in
          let ok := slen <=? size_t (slen + nzaat / 5) in
          let slen := size_t (slen + nzaat / 5) in
          '(ok, slen) <- for_ 0 7 (fun i '(ok, slen) =>
            if ok : bool then Ok (slen <? size_t (slen + n), size_t (slen + n)) else Ok (ok, slen)) (ok, slen) ;;
          if (ok : bool) && (slen <? SMAX) && (slen <? Int_MAX) && mem 4%nat then
            P <- AMD_1 n alpha aggressive Cp Ci P Pinv Len slen ;;
            Ok (r, P)
          else Ok (AMD_OUT_OF_MEMORY, P))
      (fun '(st, P') => st <> AMD_OUT_OF_MEMORY ->
    exists iwlen N start iw s0 s', given n iwlen N start iw s0 /\
    (forall v u, 0 <= v < n -> 0 <= u < n -> In u (N v) <-> u <> v /\ (has_entry Ap Ai u v \/ has_entry Ap Ai v u)) /\
    AMD_2 n iwlen alpha aggressive s0 = Ok s' /\ P' = aLast s')).
  { intros Cp Ci Len Pinv nz' HC HS Hz' LL LPi HE. destruct (pattern_funs n nz' Cp Ci Hn HC HS) as [ap [ai [A1 [A2 [A3 [A4 [A5 [A6 A7]]]]]]]].
    assert (EE : forall u v, 0 <= v < n -> entry ap ai u v <-> has_entry Cp Ci u v).
    { intros u v Hv. unfold entry, has_entry. split.
      - intros [p [Hp Ep]]. exists (ap v), (ap (v + 1)), p. split; [apply A4; lia|]. split; [apply A4; lia|]. split; auto. rewrite A5; [congruence|]. eapply col_pos; eauto.
      - intros [a [b [p [Ea [Eb [Hp Ep]]]]]]. rewrite A4 in Ea, Eb by lia. injection Ea as <-. injection Eb as <-. exists p. split; auto.
        rewrite A5 in Ep; [congruence|]. eapply col_pos; eauto. }
    rewrite SMAX_val in *.
    wb. apply (AMD_aat_ok n nz' Cp Ci ap ai Hn A1 A2 A3 A4 A5 A6 A7 Len P); auto; [lia|]. intros l Len' P' G VL LP'. cbv zeta beta iota.
    pose proof (start_bound n nz' ap ai Hn A1 A2 A3 A6 l G) as SB.
    assert (S5 : 0 <= start l n / 5 <= 2 * nz / 5) by (split; [apply Z.div_pos; lia|apply Z.div_le_mono; lia]).
    assert (S6 : 2 * nz / 5 <= 2 * nz) by (apply Z.div_le_upper_bound; lia).
    assert (Sm : size_t (start l n + start l n / 5) = start l n + start l n / 5) by (unfold size_t; apply Z.mod_small; lia).
    rewrite Sm. wb. eapply wp_mono; [apply (slen_loop n (start l n + start l n / 5) (start l n <=? start l n + start l n / 5)); lia|].
    intros [ok slen] [K1 [K2 K3]]. cbv beta iota.
    destruct (ok && (slen <? 2 ^ 61 - 1) && (slen <? Int_MAX) && mem 4%nat) eqn:T; [|wok; congruence].
    rewrite !andb_true_iff in T. destruct T as [[[T1 T2] T3] T4]. destruct (K1 T1) as [_ Es].
    wb. apply (AMD_1_run n nz' Cp Ci ap ai Hn A1 A2 A3 A4 A5 A6 A7 alpha aggressive P' Pinv Len' slen l); auto; [lia|].
    intros N st iw s s' GV IN E. wok. intros _. exists (slen - 6 * n), N, st, iw, s, s'. split; auto. split; [|auto].
    intros v u Hv Hu. rewrite IN, !EE, HE by auto. tauto. }
  destruct Rr as [[-> HS]| ->].
  - change (AMD_OK =? AMD_OK_BUT_JUMBLED) with false. cbv iota. wok. apply (CONT Ap Ai (malloc Z n) (malloc Z n) nz); auto; [lia|]. tauto.
  - rewrite Z.eqb_refl. wb.
    destruct (C38_preprocess n nz Ap Ai (malloc Z (n + 1)) (malloc Z (Z.max nz 1)) (malloc Z n) (malloc Z n) Hn HP) as [Rp [Ri [W [Fl [nz' [EP [HC [Hz' [HS [HE [LW LF]]]]]]]]]]]; auto.
    { apply zlen_malloc; lia. } { rewrite zlen_malloc; lia. }
    rewrite EP. wok. apply (CONT Rp Ri W Fl nz'); auto. intros u v Hu Hv. rewrite !HE by auto. tauto.
Qed.

(** ** A concrete case: the path 1 - 0 - 2 with a triangle 2, 3, 4 at its end *)
Definition c85_N (v : Z) : list Z := match v with 0 => [1; 2] | 1 => [0] | 2 => [0; 3; 4] | 3 => [2; 4] | 4 => [2; 3] | _ => [] end.
Definition c85_st (v : Z) : Z := match v with 0 => 0 | 1 => 2 | 2 => 3 | 3 => 6 | _ => 8 end.
Definition c85_iw (q : Z) : Z := nth (Z.to_nat q) [1; 2; 0; 0; 3; 4; 2; 4; 2; 3] 0.
Definition c85_s : ast :=
  mkAst (zs [0; 2; 3; 6; 8]) (zs [1; 2; 0; 0; 3; 4; 2; 4; 2; 3] ++ malloc Z 5) (zs [2; 1; 3; 2; 2])
    (malloc Z 5) (malloc Z 5) (malloc Z 5) (malloc Z 5) (malloc Z 5) (malloc Z 5) (malloc Z 5) 10 0 0 0 0 0.

Lemma c85_cases (P : Z -> Prop) v : 0 <= v < 5 -> P 0 -> P 1 -> P 2 -> P 3 -> P 4 -> P v.
Proof. intros. assert (v = 0 \/ v = 1 \/ v = 2 \/ v = 3 \/ v = 4) as [-> |[-> |[-> |[-> | ->]]]] by lia; auto. Qed.

Lemma C85_case : given 5 15 c85_N c85_st c85_iw c85_s.
Proof.
  constructor; try reflexivity; try lia.
  - intros v u Hv. revert u. revert Hv. intros Hv. pattern v. apply (c85_cases _ v Hv); simpl; intros; intuition lia.
  - intros v Hv. pattern v. apply (c85_cases _ v Hv); simpl; repeat constructor; simpl; lia.
  - intros v u Hv Hu. pattern v. apply (c85_cases _ v Hv); pattern u; apply (c85_cases _ u Hu); simpl; lia.
  - intros v Hv. pattern v. apply (c85_cases _ v Hv); simpl; unfold zlen; simpl; lia.
  - intros v u Hv Hu. pattern v. apply (c85_cases _ v Hv); pattern u; apply (c85_cases _ u Hu); unfold zlen; simpl; lia.
  - simpl; lia.
  - intros v Hv. pattern v. apply (c85_cases _ v Hv); simpl; unfold c85_iw; simpl; repeat split.
  - simpl. intros q Hq. assert (X : 0 <= q < 5 \/ 0 <= q - 5 < 5) by lia. destruct X as [X|X].
    + pattern q. apply (c85_cases _ q X); vm_compute; split; congruence.
    + replace q with (q - 5 + 5) by lia. pattern (q - 5). apply (c85_cases _ _ X); vm_compute; split; congruence.
  - split; [reflexivity|]. intros v Hv. pattern v. apply (c85_cases _ v Hv); reflexivity.
  - split; [reflexivity|]. intros v Hv. pattern v. apply (c85_cases _ v Hv); reflexivity.
  - split; [reflexivity|]. simpl. intros q Hq. assert (X : 0 <= q < 5 \/ 0 <= q - 5 < 5) by lia. destruct X as [X|X].
    + pattern q. apply (c85_cases _ q X); reflexivity.
    + replace q with (q - 5 + 5) by lia. pattern (q - 5). apply (c85_cases _ _ X); reflexivity.
  - repeat split.
Qed.

Definition c85_pick (s : res ast) : res (Z * Z) := s <- s ;; '(me, s1) <- find_pivot 5 s ;; d <- rd (aDeg s) me ;; Ok (me, d).

(** The pivots: first the end of the path, then its neighbour, whose degree has dropped from 2 to 1. *)
Example C85_picks : c85_pick (amd2_init 5 16 c85_s) = Ok (1, 1) /\
  c85_pick (s <- amd2_init 5 16 c85_s ;; pivot 5 15 true s) = Ok (0, 1).
Proof. vm_compute. auto. Qed.
Print Assumptions C85_minimum. Print Assumptions C85_progress. Print Assumptions C85_first. Print Assumptions C85_whole. Print Assumptions C85_order.
