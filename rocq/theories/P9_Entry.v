(** The two entry points: when equality constraints take part, the dense entry point, and the fallback ordering
    (C33, C34, C36). *)
From Coq Require Import ZArith Reals List Lia Lra Bool.
From RecordUpdate Require Import RecordUpdate.
From Verif Require Import Res Partial Arith Lists MSparse Csc SemVec Flat DenseProofs TransposeProofs MSolver LdlNum VecOps Iter SafeInst Setup Session Spec SpecLink QpSpec
  StepSpec StepUniq Api Demo P1_Sparse P2_Kkt P4_Always.
Import ListNotations.
Open Scope Z_scope.
Open Scope res_scope.

(** ** C33 *)

(** The ordering package never reports a failure. *)
Definition never_fails (amd : amd_t) : Prop := forall n Jc Ir w st P, amd n Jc Ir w = Ok (st, P) -> 0 <= st.

(** The same arguments without equality constraints. *)
Definition without_equalities {F} (u : user F) : user F :=
  u <| u_p := 0 |> <| u_Ajc := None |> <| u_Air := None |> <| u_Apr := None |> <| u_b := None |>.

Lemma core_without (A : Arith) amd n m p P G c h sd Permut : Permut <> None \/ p = 0 \/ never_fails amd ->
  setup_core A amd n m p P G None c h None sd Permut = setup_core A amd n m 0 P G None c h None sd Permut.
Proof.
  intros H. unfold setup_core. cbn [bind]. destruct (setup_transpose A G) as [Gt| |]; auto. cbn [bind].
  match goal with |- bind ?f _ = _ => destruct f as [K| |]; auto end. cbn [bind].
  assert (E : setup_perm A amd K (m + n + 0) (n + m + p) Permut = setup_perm A amd K (m + n + 0) (n + m + 0) Permut).
  { unfold setup_perm. destruct Permut as [Pm|]; auto. destruct (amd _ _ _ _) as [[st Pm]| |] eqn:E; auto. cbn [bind].
    destruct (Z.ltb_spec st 0) as [Hs|Hs]; auto. destruct H as [H|[->|H]]; auto; [contradiction|]. apply H in E. lia. }
  rewrite E. reflexivity.
Qed.

(** If a pointer of A or b is missing or p is 0, setup does the same as without equality constraints, unless the
    ordering package is used and fails (see C36). *)
Theorem C33_equalities_ignored (A : Arith) amd u :
  u_p u = 0 \/ u_Ajc u = None \/ u_Air u = None \/ u_Apr u = None \/ u_b u = None ->
  u_perm u <> None \/ u_p u = 0 \/ never_fails amd ->
  setup A amd u = setup A amd (without_equalities u) /\
  forall l, session A amd u l = session A amd (without_equalities u) l.
Proof.
  intros H HP.
  assert (E : setup A amd u = setup A amd (without_equalities u)).
  { unfold setup, QP_SETUP. cbn [without_equalities u_n u_m u_p u_Pjc u_Pir u_Ppr u_Ajc u_Air u_Apr u_Gjc u_Gir u_Gpr u_c u_h u_b u_sigma_d u_perm].
    set (r := match u_Apr u with Some apr => _ | None => _ end).
    assert (Er : r = Ok None).
    { unfold r. destruct (u_Apr u) as [apr|]; auto. destruct (u_Ajc u) as [ajc|]; auto. destruct (u_Air u) as [air|]; auto.
      destruct (u_b u) as [bb|]; auto. destruct H as [H|[H|[H|[H|H]]]]; try discriminate. rewrite H. reflexivity. }
    rewrite Er. clear r Er. cbn [bind].
    change (u_Pjc (u <| u_p := 0 |> <| u_Ajc := None |> <| u_Air := None |> <| u_Apr := None |> <| u_b := None |>)) with (u_Pjc u).
    cbn. destruct (rd (u_Pjc u) (u_n u)) as [nzP| |]; auto. cbn [bind].
    destruct (rd (u_Gjc u) (u_n u)) as [nzG| |]; auto. cbn [bind]. apply core_without. auto. }
  split; auto. intros l. unfold session. rewrite E. reflexivity.
Qed.
Print Assumptions C33_equalities_ignored.

(** Otherwise all p of them take part. *)
Theorem C33_equalities_used (A : Arith) amd u ajc air apr bb l codes q :
  u_p u <> 0 -> u_Ajc u = Some ajc -> u_Air u = Some air -> u_Apr u = Some apr -> u_b u = Some bb ->
  session A amd u l = Ok (codes, q) ->
  q_p q = u_p u /\ q_b q = Some bb /\
  exists M, q_A q = Some M /\ sm M = u_p u /\ sn M = u_n u /\ jc M = ajc /\ ir M = air /\ pr M = apr.
Proof.
  intros Hp E1 E2 E3 E4. unfold session. destruct (setup A amd u) as [q0| |] eqn:E; cbn [bind]; try discriminate. intros Hr.
  assert (Hf : Flag (q_stats q0) = QP_FATAL) by (apply (QP_SETUP_always A amd u q0 E)).
  unfold setup, QP_SETUP in E. rewrite E1, E2, E3, E4 in E. rewrite (proj2 (Z.eqb_neq _ _) Hp) in E. cbn [negb] in E.
  destruct (rd ajc (u_n u)) as [nz| |]; try discriminate E. cbn [bind] in E.
  destruct (rd (u_Pjc u) (u_n u)) as [nzP| |]; try discriminate E. cbn [bind] in E.
  destruct (rd (u_Gjc u) (u_n u)) as [nzG| |]; try discriminate E. cbn [bind] in E.
  destruct (setup_core_always A _ _ _ _ _ _ _ _ _ _ _ _ q0 E) as [_ [_ [_ [HA0 [_ [_ [Hb0 [_ [_ [_ [_ Hp0]]]]]]]]]]].
  destruct (run_calls_always A l q0 ltac:(rewrite Hf; discriminate) _ Hr) as [HF _]. cbn [snd] in HF.
  destruct HF as [Hn Hm Hpp Hsd HP Hc HG Hh HA Hb HAt HGt HkP]. rewrite Hpp, Hb, HA, Hp0, Hb0, HA0.
  split; auto. split; auto. eexists. split; [reflexivity|]. cbn. auto.
Qed.
Print Assumptions C33_equalities_used.

(** Cases: the library's example without b, and with everything. *)
Example C33_case amd : let u := (demo FA) <| u_b := None |> in
  u_b u = None /\ u_perm u <> None /\ u_p u <> 0 /\ u_Ajc u <> None /\
  (exists ajc air apr bb, u_p (demo FA) <> 0 /\ u_Ajc (demo FA) = Some ajc /\ u_Air (demo FA) = Some air /\
     u_Apr (demo FA) = Some apr /\ u_b (demo FA) = Some bb) /\ valid_user amd (demo FA).
Proof.
  cbv zeta. split; [reflexivity|]. split; [discriminate|]. split; [discriminate|]. split; [discriminate|].
  split; [|apply demo_valid]. do 4 eexists. split; [discriminate|]. repeat split.
Qed.

(** ** C34 *)

(** Compressed-column arrays holding exactly the entries of the m x n matrix [d] that differ from 0, rows
    increasing, without spare cells. *)
Record compressed (A : Arith) (m n : Z) (d : Z -> Z -> car A) (Jc Ir : arr Z) (Pr : arr (car A)) : Prop := mkCompressed {
  cm_arrays : exists nz, csc_arrays m n Jc Ir Pr nz /\ zlen Jc = n + 1 /\ zlen Ir = nz /\ zlen Pr = nz;
  cm_sorted : sorted_columns n Jc Ir;
  cm_stored : forall i j v, 0 <= j < n -> stored Jc Ir Pr i j v <-> 0 <= i < m /\ v = d i j /\ feqb A v (f0 A) = false
}.

(** The buffer [a] holds the m x n matrix [d] column by column (30) or row by row (any other value). *)
Definition layout {F} (ordering m n : Z) (a : arr F) (d : Z -> Z -> F) : Prop :=
  forall i j, 0 <= i < m -> 0 <= j < n -> rd a (if ordering =? 30 then j * m + i else i * n + j) = Ok (d i j).

(** The arguments of QP_SETUP_dense (src/qpSWIFT.c:260). *)
Record dense_user (F : Type) : Type := mkDense {
  d_n : Z; d_m : Z; d_p : Z; d_P : arr F; d_A : option (arr F); d_G : arr F; d_c : arr F; d_h : arr F; d_b : option (arr F);
  d_perm : option (arr Z); d_ordering : Z
}.
Arguments mkDense {F}. Arguments d_n {F}. Arguments d_m {F}. Arguments d_p {F}. Arguments d_P {F}. Arguments d_A {F}.
Arguments d_G {F}. Arguments d_c {F}. Arguments d_h {F}. Arguments d_b {F}. Arguments d_perm {F}. Arguments d_ordering {F}.

Definition dense_setup (A : Arith) (amd : amd_t) (w : dense_user (car A)) : res (qp (car A)) :=
  QP_SETUP_dense A amd (d_n w) (d_m w) (d_p w) (d_P w) (d_A w) (d_G w) (d_c w) (d_h w) (d_b w) (d_perm w) (d_ordering w).
Definition dense_session (A : Arith) (amd : amd_t) (w : dense_user (car A)) (l : list (call A)) : res (list Z * qp (car A)) :=
  q <- dense_setup A amd w ;; run_calls A q l.

(** The equality constraints of a dense call, if any. *)
Definition d_eqs {F} (w : dense_user F) : option (arr F * arr F) :=
  match d_A w, d_b w with
  | Some a, Some bb => if d_p w =? 0 then None else Some (a, bb)
  | _, _ => None
  end.

(** [u] is the call of QP_SETUP for the same matrices [dP], [dA], [dG] in compressed form. *)
Record sparse_form (A : Arith) (w : dense_user (car A)) (u : user (car A)) (dP dA dG : Z -> Z -> car A) : Prop := mkSparseForm {
  sf_n : u_n u = d_n w; sf_m : u_m u = d_m w; sf_p : u_p u = d_p w;
  sf_c : u_c u = d_c w; sf_h : u_h u = d_h w; sf_b : u_b u = d_b w; sf_perm : u_perm u = d_perm w; sf_sd : u_sigma_d u = f0 A;
  sf_P : layout (d_ordering w) (d_n w) (d_n w) (d_P w) dP /\ compressed A (d_n w) (d_n w) dP (u_Pjc u) (u_Pir u) (u_Ppr u);
  sf_G : layout (d_ordering w) (d_m w) (d_n w) (d_G w) dG /\ compressed A (d_m w) (d_n w) dG (u_Gjc u) (u_Gir u) (u_Gpr u);
  sf_A : match d_eqs w with
         | Some (a, bb) => 0 <= d_p w /\ layout (d_ordering w) (d_p w) (d_n w) a dA /\
             exists ajc air apr, u_Ajc u = Some ajc /\ u_Air u = Some air /\ u_Apr u = Some apr /\ compressed A (d_p w) (d_n w) dA ajc air apr
         | None => u_Ajc u = None
         end
}.

Lemma sorted_same {T} (l1 l2 : list (Z * T)) :
  (forall k r v r' v', nth_error l1 k = Some (r, v) -> nth_error l1 (S k) = Some (r', v') -> r < r') ->
  (forall k r v r' v', nth_error l2 k = Some (r, v) -> nth_error l2 (S k) = Some (r', v') -> r < r') ->
  (forall e, In e l1 <-> In e l2) -> l1 = l2.
Proof.
  revert l2. induction l1 as [|[a v] l1 IH]; intros l2 H1 H2 HI.
  - destruct l2 as [|e l2]; auto. exfalso. apply (HI e). left. reflexivity.
  - destruct l2 as [|[b w] l2]; [exfalso; apply (HI (a, v)); left; reflexivity|].
    assert (G : forall (l : list (Z * T)) r0 v0, (forall k r v r' v', nth_error ((r0, v0) :: l) k = Some (r, v) -> nth_error ((r0, v0) :: l) (S k) = Some (r', v') -> r < r') ->
                forall e, In e l -> r0 < fst e).
    { clear. induction l as [|[r1 v1] l IH]; intros r0 v0 H e []; [subst e; apply (H O r0 v0 r1 v1); reflexivity|].
      assert (r0 < r1) by (apply (H O r0 v0 r1 v1); reflexivity). assert (r1 < fst e); [|lia].
      apply (IH r1 v1); auto. intros k r v r' v' E1 E2. apply (H (S k) r v r' v'); auto. }
    assert (E : (a, v) = (b, w)).
    { destruct (proj1 (HI (a, v)) (or_introl eq_refl)) as [E|E]; [congruence|].
      destruct (proj2 (HI (b, w)) (or_introl eq_refl)) as [E'|E']; [congruence|]. exfalso.
      pose proof (G _ _ _ H2 _ E). pose proof (G _ _ _ H1 _ E'). cbn [fst] in *. lia. }
    injection E as <- <-. f_equal. apply IH.
    + intros k r x r' x' E1 E2. apply (H1 (S k) r x r' x'); auto.
    + intros k r x r' x' E1 E2. apply (H2 (S k) r x r' x'); auto.
    + intros e. pose proof (HI e) as [I1 I2]. split; intros He.
      * destruct (I1 (or_intror He)) as [E|E]; auto. subst e. pose proof (G _ _ _ H1 _ He). cbn [fst] in *. lia.
      * destruct (I2 (or_intror He)) as [E|E]; auto. subst e. pose proof (G _ _ _ H2 _ He). cbn [fst] in *. lia.
Qed.

Section Dense.
Variable A : Arith.
Notation F := (car A).

Lemma compressed_repr m n d Jc Ir (Pr : arr F) nz : 0 <= m -> 0 <= n -> compressed A m n d Jc Ir Pr -> rd Jc n = Ok nz ->
  ReprX (SparseMatrixSetup A m n nz Jc Ir Pr) m n (dense_col A m d).
Proof.
  intros Hm Hn [[nz' [HA [L1 [L2 L3]]]] HS HT] Enz.
  assert (En : nz' = nz) by (pose proof (cp_last _ _ _ _ _ (ca_pattern _ _ _ _ _ _ HA)); congruence). rewrite En in *. clear nz' En.
  destruct (csc_link (f0 A) _ _ _ _ _ _ Hn HA) as [C [RI ES]].
  assert (EC : forall j, 0 <= j < n -> column (f0 A) Jc Ir Pr j = dense_col A m d j).
  { intros j Hj. apply sorted_same.
    - intros k r v r' v' E1 E2. pose proof (csc_ir _ _ _ _ _ C j k r v Hj E1) as G1. pose proof (csc_ir _ _ _ _ _ C j (S k) r' v' Hj E2) as G2.
      set (s := start (column (f0 A) Jc Ir Pr) j) in *.
      assert (HL : (S k < length (column (f0 A) Jc Ir Pr j))%nat) by (apply nth_error_Some; congruence).
      destruct (HS j s (s + zlen (column (f0 A) Jc Ir Pr j)) (s + Z.of_nat k) Hj) as [x [y [X1 [X2 X3]]]].
      + apply (csc_jc _ _ _ _ _ C). lia.
      + rewrite (csc_jc _ _ _ _ _ C) by lia. rewrite start_succ by lia. reflexivity.
      + lia.
      + unfold zlen. lia.
      + replace (s + Z.of_nat k + 1) with (s + Z.of_nat (S k)) in X2 by lia. congruence.
    - intros k r v r' v' E1 E2. eapply dense_sorted; eauto.
    - intros [i v]. rewrite <- (Csc_stored (F := F) _ _ _ _ _ i j v C Hj). rewrite (HT i j v Hj). split.
      + intros [H1 [-> H3]]. apply dense_col_in; auto. unfold fneq0. rewrite H3. reflexivity.
      + intros Hin. apply dense_col_rows in Hin. destruct Hin as [H1 [H2 H3]]. unfold fneq0 in H3.
        split; auto. split; auto. destruct (feqb A v (f0 A)); auto; discriminate. }
  assert (C' : Csc Jc Ir Pr n (dense_col A m d)) by (eapply Csc_ext; [exact C|]; auto).
  assert (ES' : start (dense_col A m d) n = nz) by (rewrite <- ES; apply start_ext; intros; rewrite EC; auto).
  split; [split|..]; cbn; auto; try lia.
  intros j r v Hj Hin. apply dense_col_rows in Hin. tauto.
Qed.

Lemma conv_same ordering m n a d Jc Ir (Pr : arr F) : 0 <= m -> 0 <= n -> layout ordering m n a d -> compressed A m n d Jc Ir Pr ->
  exists nz, rd Jc n = Ok nz /\ dense_conv A ordering m n a = Ok (SparseMatrixSetup A m n nz Jc Ir Pr).
Proof.
  intros Hm Hn HL HC. pose proof HC as [[nz [HA _]] _ _]. pose proof (cp_last _ _ _ _ _ (ca_pattern _ _ _ _ _ _ HA)) as E.
  exists nz. split; auto. pose proof (compressed_repr m n d Jc Ir Pr nz Hm Hn HC E) as R1.
  destruct (proj1 (wp_exists _ _) (dense_conv_ok A ordering m n a d Hm Hn HL)) as [M [EM R2]]. rewrite EM. f_equal. eapply ReprX_unique; eauto.
Qed.

(** It has at most m n entries. *)
Lemma compressed_size m n d Jc Ir (Pr : arr F) : 0 <= m -> 0 <= n -> compressed A m n d Jc Ir Pr -> get 0 Jc n <= m * n.
Proof.
  intros Hm Hn HC. pose proof HC as [[nz [HC' _]] _ _]. pose proof (cp_last _ _ _ _ _ (ca_pattern _ _ _ _ _ _ HC')) as E.
  rewrite (get_rd 0 _ _ _ E). pose proof (rp_nnz _ _ _ _ (rx_repr _ _ _ _ (compressed_repr m n d Jc Ir Pr nz Hm Hn HC E))) as EN. cbn in EN. rewrite EN.
  enough (X : forall k, 0 <= k -> start (dense_col A m d) k <= m * k) by (apply X; auto).
  intros k Hk. pattern k. apply (zr_ind _ 0); auto; [rewrite start_0; lia|]. intros j Hj IH. unfold start in *. rewrite zr_snoc, sumz_app by lia. cbn [sumz].
  assert (zlen (dense_col A m d j) <= m); [|lia]. unfold dense_col, zlen.
  assert (FL : forall (T : Type) (g : T -> bool) l, (length (filter g l) <= length l)%nat) by (intros T g l; induction l as [|x l IHl]; cbn; [lia|destruct (g x); cbn; lia]).
  pose proof (FL _ (fun e : Z * F => fneq0 A (snd e)) (map (fun i => (i, d i j)) (zr 0 m))) as L. rewrite map_length in L.
  pose proof (zlen_zr 0 m) as Lz. unfold zlen in Lz. lia.
Qed.

Lemma ordering_ok_le amd N cap cap' fits : cap' <= cap -> ordering_ok amd N cap fits -> ordering_ok amd N cap' fits.
Proof. intros H O Jc Ir nz P HC Hnz. apply (O Jc Ir nz P HC). lia. Qed.

(** C34: the dense entry point builds the same handle as the sparse one. *)
Theorem C34_same_handle amd w u dP dA dG : 0 <= d_n w -> 0 <= d_m w -> sparse_form A w u dP dA dG ->
  dense_setup A amd w = setup A amd u /\ forall l, dense_session A amd w l = session A amd u l.
Proof.
  intros Hn Hm [E1 E2 E3 E4 E5 E6 E7 E8 [LP CP] [LG CG] HA].
  assert (E : dense_setup A amd w = setup A amd u).
  { unfold dense_setup, setup, QP_SETUP_dense, QP_SETUP. rewrite E1, E2, E3, E4, E5, E6, E7, E8.
    destruct (conv_same _ _ _ _ _ _ _ _ Hn Hn LP CP) as [nzP [RP ->]]. destruct (conv_same _ _ _ _ _ _ _ _ Hm Hn LG CG) as [nzG [RG ->]].
    rewrite RP, RG. cbn [bind]. unfold d_eqs in HA.
    destruct (d_A w) as [a|]; [|rewrite HA; destruct (u_Apr u); reflexivity].
    destruct (d_b w) as [bb|]; [|destruct (u_Apr u); auto; destruct (u_Ajc u); auto; destruct (u_Air u); auto].
    destruct (Z.eqb_spec (d_p w) 0) as [Ep|Ep]; [rewrite HA; cbn [negb]; destruct (u_Apr u); reflexivity|].
    destruct HA as [Hp [LA [ajc [air [apr [-> [-> [-> CA]]]]]]]]. cbn [negb].
    destruct (conv_same _ _ _ _ _ _ _ _ Hp Hn LA CA) as [nzA [-> ->]]. reflexivity. }
  split; auto. intros l. unfold dense_session, session. rewrite E. reflexivity.
Qed.

(** Every dense problem has a sparse form. *)
Lemma compress ordering m n a d : 0 <= m -> 0 <= n -> layout ordering m n a d -> exists Jc Ir (Pr : arr F), compressed A m n d Jc Ir Pr.
Proof.
  intros Hm Hn HL. destruct (proj1 (wp_exists _ _) (dense_conv_ok A ordering m n a d Hm Hn HL)) as [M [EM R]].
  destruct (dense_result A m n d M Hm Hn R) as [H1 [H2 [H3 [H4 [H5 [H6 [H7 H8]]]]]]].
  exists (jc M), (ir M), (pr M). split; eauto.
Qed.

(** What the dense entry point requires of its caller: filled buffers, and a nonzero in one of the matrices. *)
Record valid_dense (amd : amd_t) (w : dense_user F) (dP dA dG : Z -> Z -> F) : Prop := mkValidDense {
  vd_n : 0 <= d_n w; vd_m : 1 <= d_m w;
  vd_P : layout (d_ordering w) (d_n w) (d_n w) (d_P w) dP;
  vd_G : layout (d_ordering w) (d_m w) (d_n w) (d_G w) dG;
  vd_A : forall a bb, d_eqs w = Some (a, bb) -> 0 <= d_p w /\ layout (d_ordering w) (d_p w) (d_n w) a dA /\ filled bb (d_p w);
  vd_c : filled (d_c w) (d_n w); vd_h : filled (d_h w) (d_m w);
  vd_some : exists i j, 0 <= j < d_n w /\
    ((0 <= i < d_n w /\ feqb A (dP i j) (f0 A) = false) \/ (0 <= i < d_m w /\ feqb A (dG i j) (f0 A) = false) \/
     (d_eqs w <> None /\ 0 <= i < d_p w /\ feqb A (dA i j) (f0 A) = false));
  vd_perm : let p := match d_eqs w with Some _ => d_p w | None => 0 end in
    match d_perm w with
    | Some P => permutation_array P (d_n w + p + d_m w)
    | None => ordering_ok amd (d_n w + p + d_m w) (d_n w * d_n w + 2 * (d_m w * d_n w) + d_m w + 2 * (p * d_n w)) (d_p w = p)
    end
}.

(** So every theorem about sessions of valid sparse calls is one about valid dense calls. *)
Theorem C34_dense_is_sparse amd w dP dA dG : valid_dense amd w dP dA dG ->
  exists u, sparse_form A w u dP dA dG /\ valid_user amd u /\ forall l, dense_session A amd w l = session A amd u l.
Proof.
  intros [Hn Hm HP HG HA Hc Hh [i0 [j0 [Hj0 Hs]]] Hpm].
  assert (Hm0 : 0 <= d_m w) by lia.
  destruct (compress _ _ _ _ _ Hn Hn HP) as [Pjc [Pir [Ppr CP]]]. destruct (compress _ _ _ _ _ Hm0 Hn HG) as [Gjc [Gir [Gpr CG]]].
  assert (HE : exists aj ai ap, match d_eqs w with
      | Some (a, bb) => exists ajc air apr, aj = Some ajc /\ ai = Some air /\ ap = Some apr /\ compressed A (d_p w) (d_n w) dA ajc air apr
      | None => aj = None end).
  { destruct (d_eqs w) as [[a bb]|] eqn:E; [|exists None, None, (@None (arr F)); reflexivity].
    destruct (HA a bb eq_refl) as [Hp [LA _]]. destruct (compress _ _ _ _ _ Hp Hn LA) as [ajc [air [apr CA]]].
    exists (Some ajc), (Some air), (Some apr). eauto 10. }
  destruct HE as [aj [ai [ap HE]]].
  set (u := mkUser (d_n w) (d_m w) (d_p w) Pjc Pir Ppr aj ai ap Gjc Gir Gpr (d_c w) (d_h w) (d_b w) (f0 A) (d_perm w)).
  assert (SF : sparse_form A w u dP dA dG).
  { split; try reflexivity; auto. destruct (d_eqs w) as [[a bb]|] eqn:E; auto. destruct (HA a bb eq_refl) as [Hp [LA _]]. auto. }
  assert (EQ : match d_eqs w with
      | Some (a, bb) => exists ajc air apr, u_eqs u = Some (ajc, air, apr, bb) /\ compressed A (d_p w) (d_n w) dA ajc air apr
      | None => u_eqs u = None end).
  { unfold u_eqs, u; cbn [u_Apr u_Ajc u_Air u_b u_p]. unfold d_eqs in HE. unfold d_eqs.
    destruct (d_A w) as [a|]; [|rewrite HE; destruct ap; reflexivity].
    destruct (d_b w) as [bb|]; [|rewrite HE; destruct ap; reflexivity].
    destruct (Z.eqb_spec (d_p w) 0) as [Ep|Ep]; [rewrite HE; destruct ap; reflexivity|].
    destruct HE as [ajc [air [apr [-> [-> [-> CA]]]]]]. eauto 10. }
  assert (Epe : u_pe u = match d_eqs w with Some _ => d_p w | None => 0 end).
  { unfold u_pe. destruct (d_eqs w) as [[a bb]|]; [destruct EQ as [? [? [? [-> _]]]]|rewrite EQ]; reflexivity. }
  exists u. split; auto. split; [|apply (C34_same_handle amd w u dP dA dG Hn ltac:(lia) SF)].
  split; auto.
  - destruct CP as [[nz [C _]] _ _]. eauto.
  - destruct CG as [[nz [C _]] _ _]. eauto.
  - intros ajc air apr bb E. destruct (d_eqs w) as [[a bb']|] eqn:Ed; [|congruence].
    destruct EQ as [ajc' [air' [apr' [E' CA]]]]. rewrite E in E'. injection E' as <- <- <- <-.
    destruct (HA _ _ eq_refl) as [Hp [LA Hb]]. split; auto. split; auto. destruct CA as [[nz [C _]] _ _]. eauto.
  - destruct Hs as [[Hi Hs]|[[Hi Hs]|[Hne [Hi Hs]]]].
    + exists i0, j0, (dP i0 j0). split; auto. left. apply (cm_stored _ _ _ _ _ _ _ CP); auto.
    + exists i0, j0, (dG i0 j0). split; auto. right. left. apply (cm_stored _ _ _ _ _ _ _ CG); auto.
    + destruct (d_eqs w) as [[a bb]|]; [|congruence]. destruct EQ as [ajc [air [apr [E CA]]]].
      exists i0, j0, (dA i0 j0). split; auto. right. right. exists ajc, air, apr, bb. split; auto. apply (cm_stored _ _ _ _ _ _ _ CA); auto.
  - unfold u_N. rewrite Epe. cbn [u u_perm u_n u_m u_p]. cbv zeta in Hpm. destruct (d_perm w); auto. eapply ordering_ok_le; [|exact Hpm].
    unfold u_cap. cbn [u u_n u_m u_p u_Pjc u_Gjc]. pose proof (compressed_size _ _ _ _ _ _ Hn Hn CP). pose proof (compressed_size _ _ _ _ _ _ Hm0 Hn CG).
    destruct (d_eqs w) as [[a bb]|] eqn:Ed; [|rewrite EQ; lia].
    destruct EQ as [ajc [air [apr [E CA]]]]. rewrite E. destruct (HA _ _ eq_refl) as [Hp _]. pose proof (compressed_size _ _ _ _ _ _ Hp Hn CA). lia.
Qed.
End Dense.
Print Assumptions C34_same_handle.
Print Assumptions C34_dense_is_sparse.

(** In exact arithmetic it is the same problem. *)
Theorem C34_same_problem w u dP dA dG : 0 <= d_n w -> 0 <= d_m w -> sparse_form RA w u dP dA dG ->
  same_qp (user_qp u) (mkQPd (d_n w) (d_m w) (match d_eqs w with Some _ => d_p w | None => 0 end) dP dA dG
    (get 0%R (d_c w)) (match d_eqs w with Some (_, bb) => get 0%R bb | None => fun _ => 0%R end) (get 0%R (d_h w))).
Proof.
  intros Hn Hm [E1 E2 E3 E4 E5 E6 E7 E8 [LP CP] [LG CG] HA].
  assert (ENT : forall m n d Jc Ir Pr i j, compressed RA m n d Jc Ir Pr -> 0 <= m -> 0 <= n -> 0 <= i < m -> 0 <= j < n ->
    mat_entry Jc Ir Pr i j = d i j).
  { intros m n d Jc Ir Pr i j HC Hm' Hn' Hi Hj. pose proof HC as [[nz [HC' _]] _ _].
    pose proof (cp_last _ _ _ _ _ (ca_pattern _ _ _ _ _ _ HC')) as E.
    pose proof (compressed_repr RA m n d Jc Ir Pr nz Hm' Hn' HC E) as R.
    pose proof (Csc_column 0%R _ _ _ n (dense_col RA m d) j (rp_csc _ _ _ _ (rx_repr _ _ _ _ R)) Hj) as EC.
    unfold mat_entry. cbn [car RA jc ir pr SparseMatrixSetup] in *. rewrite EC. apply (dense_col_ent m d i j Hi). }
  assert (EQ : match d_eqs w with
      | Some (a, bb) => 0 <= d_p w /\ exists ajc air apr, u_eqs u = Some (ajc, air, apr, bb) /\ compressed RA (d_p w) (d_n w) dA ajc air apr
      | None => u_eqs u = None end).
  { cbn [car RA] in *. unfold u_eqs. rewrite E3, E6. unfold d_eqs in HA. unfold d_eqs.
    destruct (@d_A R w) as [a|]; [|rewrite HA; destruct (@u_Apr R u); reflexivity].
    destruct (@d_b R w) as [bb|]; [|rewrite HA; destruct (@u_Apr R u); reflexivity].
    destruct (Z.eqb_spec (@d_p R w) 0) as [Ep|Ep]; [rewrite HA; destruct (@u_Apr R u); reflexivity|].
    destruct HA as [Hp [LA [ajc [air [apr [-> [-> [-> CA]]]]]]]]. eauto 10. }
  cbn [car RA] in *. unfold user_qp. destruct (@d_eqs R w) as [[a bb]|].
  - destruct EQ as [Hp [ajc [air [apr [-> CA]]]]]. split; cbn; auto; rewrite ?E1, ?E2, ?E3, ?E4, ?E5; auto; intros; eapply ENT; eauto.
  - rewrite EQ. split; cbn; auto; rewrite ?E1, ?E2, ?E3, ?E4, ?E5; auto; intros; try lia; eapply ENT; eauto.
Qed.
Print Assumptions C34_same_problem.

(** The problem of [demo], written row by row. *)
Definition demo_dense (A : Arith) : dense_user (car A) :=
  mkDense 3 2 1 (fs A [5; 1; 0; 1; 2; 1; 0; 1; 4]) (Some (fs A [1; -2; 1])) (fs A [-4; -4; 0; 0; 0; -1])
    (fs A [1; 2; 1]) (fs A [-1; -1]) (Some (fs A [3])) (Some (zs [5; 2; 3; 1; 4; 0])) 20.

Definition entries (l : list (list Z)) (i j : Z) : R := IZR (nth (Z.to_nat j) (nth (Z.to_nat i) l []) 0).

Example C34_case amd : valid_dense RA amd (demo_dense RA) (entries [[5; 1; 0]; [1; 2; 1]; [0; 1; 4]]) (entries [[1; -2; 1]])
  (entries [[-4; -4; 0]; [0; 0; -1]]).
Proof.
  split.
  - cbn; lia.
  - cbn; lia.
  - intros i j Hi Hj. change (d_n (demo_dense RA)) with 3 in *. enum i; enum j; reflexivity.
  - intros i j Hi Hj. change (d_n (demo_dense RA)) with 3 in *. change (d_m (demo_dense RA)) with 2 in *. enum i; enum j; reflexivity.
  - intros a bb E. cbn in E. injection E as <- <-. change (d_p (demo_dense RA)) with 1. change (d_n (demo_dense RA)) with 3.
    split; [lia|]. split; [intros i j Hi Hj; enum i; enum j; reflexivity|]. intros i Hi. enum i. eexists. reflexivity.
  - intros i Hi. change (d_n (demo_dense RA)) with 3 in *. enum i; eexists; reflexivity.
  - intros i Hi. change (d_m (demo_dense RA)) with 2 in *. enum i; eexists; reflexivity.
  - exists 0, 0. split; [cbn; lia|]. left. split; [cbn; lia|]. change (Reqb 5 0 = false). apply Reqb_false. lra.
  - change (d_n (demo_dense RA) + match d_eqs (demo_dense RA) with Some _ => d_p (demo_dense RA) | None => 0 end + d_m (demo_dense RA)) with 6.
    change (permutation_array (zs [5; 2; 3; 1; 4; 0]) 6). perm_concrete.
Qed.

(** ** C36 *)

(** The ordering package fails, whatever it is given. *)
Definition always_fails (amd : amd_t) : Prop :=
  forall n Jc Ir w, exists st P, amd n Jc Ir w = Ok (st, P) /\ st < 0 /\ zlen P = zlen w.
Definition failing : amd_t := fun _ _ _ w => Ok (-1, w).

Lemma identity_loop k : forall P : arr Z, 0 <= k -> pw (for_ 0 k (fun idx P => wr P idx idx) P) (fun P' => forall i, 0 <= i < k -> rd P' i = Ok i).
Proof.
  intros P Hk. apply (pw_for (fun j P' => forall i, 0 <= i < j -> rd P' i = Ok i)).
  - intros i Hi. lia.
  - intros j P1 Hj H. apply pw_wr. intros P2 _ _ E i Hi. rewrite E. destruct (Z.eqb_spec i j); [congruence|]. apply H. lia.
  - rewrite Z.max_r by lia. auto.
Qed.

Lemma setup_core_fallback (A : Arith) amd n m p_arg P G AM c h b sd : always_fails amd -> 0 <= n + m + p_arg ->
  pw (setup_core A amd n m p_arg P G AM c h b sd None) (fun q => forall i, 0 <= i < n + m + p_arg -> rd (k_P (q_kkt q)) i = Ok i).
Proof.
  intros HA H0. unfold setup_core. cbv zeta. pskip. pskip.
  assert (HP : forall (K : smat (car A)) np, pw (setup_perm A amd K np (n + m + p_arg) None) (fun r => forall i, 0 <= i < n + m + p_arg -> rd (fst r) i = Ok i)).
  { intros K np. unfold setup_perm. destruct (HA (sn K) (jc K) (ir K) (malloc Z np)) as [st [P1 [-> [Hs _]]]]. cbn [bind].
    rewrite (proj2 (Z.ltb_lt _ _) Hs). apply pw_bind. eapply pw_mono; [apply identity_loop; auto|]. intros P2 H2. apply pw_ok. exact H2. }
  destruct AM as [M|].
  - pskip. apply pw_bind. eapply pw_mono; [apply HP|]. intros [Pm r] HPm. apply pw_bind. eapply pw_mono; [apply kkt_initialize_always|].
    intros [ok q] [Hok [HF HFl]]. cbn [fst snd] in *. subst ok. apply pw_ok. rewrite (fr_kP _ _ _ HF). exact HPm.
  - pskip. apply pw_bind. eapply pw_mono; [apply HP|]. intros [Pm r] HPm. apply pw_bind. eapply pw_mono; [apply kkt_initialize_always|].
    intros [ok q] [Hok [HF HFl]]. cbn [fst snd] in *. subst ok. apply pw_ok. rewrite (fr_kP _ _ _ HF). exact HPm.
Qed.

(** If p is the number of equality constraints and the other arguments are valid, the fallback stays inside its
    array and is the natural order. *)
Theorem C36_fallback_inside (A : Arith) amd (u : user (car A)) : div_ok A -> always_fails amd -> u_perm u = None -> u_p u = u_pe u ->
  (exists P, valid_user amd (u <| u_perm := Some P |>)) ->
  exists q, setup A amd u = Ok q /\ forall i, 0 <= i < u_N u -> rd (k_P (q_kkt q)) i = Ok i.
Proof.
  intros Hdiv HA HP Hp [P0 [V1 V2 V3 V4 V5 V6 V7 V8 _]].
  assert (V : valid_user amd u).
  { split; auto. rewrite HP. intros Jc Ir nz P _ _ HL. destruct (HA (u_N u) Jc Ir P) as [st [P' [E [Hs L]]]].
    exists st, P'. split; auto. split; [congruence|]. split; [lia|]. auto. }
  destruct (proj1 (wp_exists _ _) (setup_ok A amd u Hdiv V)) as [q [E _]]. exists q. split; auto.
  assert (N0 : 0 <= u_N u) by (pose proof (valid_pe A amd u V); unfold u_N; cbn in V1, V2; lia).
  assert (EN : u_n u + u_m u + u_p u = u_N u) by (unfold u_N; lia).
  intros i Hi. unfold setup, QP_SETUP in E. rewrite HP in E.
  assert (W : forall P G AM c h b sd, pw (setup_core A amd (u_n u) (u_m u) (u_p u) P G AM c h b sd None)
      (fun q => forall i, 0 <= i < u_N u -> rd (k_P (q_kkt q)) i = Ok i)).
  { intros. rewrite <- EN. apply setup_core_fallback; auto. lia. }
  revert i Hi. revert q E. 
  match goal with |- forall q, ?X = Ok q -> @?Y q => change (pw X Y) end.
  pskip. pskip. pskip. apply W.
Qed.
Print Assumptions C36_fallback_inside.

(** It is written outside its array if A or b is missing although p is not 0. *)
Theorem C36_fallback_refuted : exists u : user (car FA),
  u_perm u = None /\ u_eqs u = None /\ valid_user failing (u <| u_p := 0 |>) /\ setup FA failing u = Ub OobWrite.
Proof.
  exists ((small FA) <| u_perm := None |> <| u_p := 1 |>). split; [reflexivity|]. split; [reflexivity|]. split; [|vm_compute; reflexivity].
  destruct (small_valid FA failing) as [H1 H2 H3 H4 H5 H6 H7 H8 H9]. split; auto. cbn. 
  intros Jc Ir nz P HC _ HL. exists (-1), P. split; [reflexivity|]. split; auto. split; [lia|]. intros _. reflexivity.
Qed.
Print Assumptions C36_fallback_refuted.

Example C36_case (A : Arith) : always_fails failing /\ u_perm ((small A) <| u_perm := None |>) = None /\
  u_p ((small A) <| u_perm := None |>) = u_pe ((small A) <| u_perm := None |>) /\
  exists P, valid_user failing ((small A) <| u_perm := None |> <| u_perm := Some P |>).
Proof.
  split; [intros n Jc Ir w; exists (-1), w; split; [reflexivity|]; split; [lia|reflexivity]|].
  split; [reflexivity|]. split; [reflexivity|]. exists (zs [1; 0]).
  destruct (small_valid A failing) as [H1 H2 H3 H4 H5 H6 H7 H8 H9]. split; auto.
Qed.

(** ** C33 for the dense entry point *)

Definition dense_without {F} (w : dense_user F) : dense_user F :=
  mkDense (d_n w) (d_m w) 0 (d_P w) None (d_G w) (d_c w) (d_h w) None (d_perm w) (d_ordering w).

Theorem C33_dense_ignored (A : Arith) amd w : d_p w = 0 \/ d_A w = None \/ d_b w = None ->
  d_perm w <> None \/ d_p w = 0 \/ never_fails amd ->
  forall l, dense_session A amd w l = dense_session A amd (dense_without w) l.
Proof.
  intros H HP l. unfold dense_session.
  assert (E : dense_setup A amd w = dense_setup A amd (dense_without w)).
  { unfold dense_setup, QP_SETUP_dense. cbn [dense_without d_n d_m d_p d_P d_A d_G d_c d_h d_b d_perm d_ordering].
    assert (Er : match d_A w, d_b w with
        | Some apr, Some _ => if negb (d_p w =? 0) then M <- dense_conv A (d_ordering w) (d_p w) (d_n w) apr ;; Ok (Some M) else Ok None
        | _, _ => Ok None
        end = Ok None).
    { destruct (d_A w) as [a|]; auto. destruct (d_b w) as [bb|]; auto. destruct H as [H|[H|H]]; try discriminate. rewrite H. reflexivity. }
    rewrite Er. cbn [bind]. destruct (dense_conv A (d_ordering w) (d_n w) (d_n w) (d_P w)) as [P| |]; auto. cbn [bind].
    destruct (dense_conv A (d_ordering w) (d_m w) (d_n w) (d_G w)) as [G| |]; auto. cbn [bind]. apply core_without. auto. }
  rewrite E. reflexivity.
Qed.
Print Assumptions C33_dense_ignored.

Theorem C33_dense_used (A : Arith) amd w a bb l codes q : d_p w <> 0 -> d_A w = Some a -> d_b w = Some bb ->
  dense_session A amd w l = Ok (codes, q) ->
  q_p q = d_p w /\ q_b q = Some bb /\ exists M, q_A q = Some M /\ dense_conv A (d_ordering w) (d_p w) (d_n w) a = Ok M.
Proof.
  intros Hp E1 E2. unfold dense_session. destruct (dense_setup A amd w) as [q0| |] eqn:E; cbn [bind]; try discriminate. intros Hr.
  unfold dense_setup, QP_SETUP_dense in E. rewrite E1, E2 in E. rewrite (proj2 (Z.eqb_neq _ _) Hp) in E. cbn [negb] in E.
  destruct (dense_conv A (d_ordering w) (d_p w) (d_n w) a) as [M| |]; try discriminate E. cbn [bind] in E.
  destruct (dense_conv A (d_ordering w) (d_n w) (d_n w) (d_P w)) as [P| |]; try discriminate E. cbn [bind] in E.
  destruct (dense_conv A (d_ordering w) (d_m w) (d_n w) (d_G w)) as [G| |]; try discriminate E. cbn [bind] in E.
  destruct (setup_core_always A _ _ _ _ _ _ _ _ _ _ _ _ q0 E) as [Hf [_ [_ [HA0 [_ [_ [Hb0 [_ [_ [_ [_ Hp0]]]]]]]]]]].
  destruct (run_calls_always A l q0 ltac:(rewrite Hf; discriminate) _ Hr) as [HF _]. cbn [snd] in HF.
  destruct HF as [Hn Hm Hpp Hsd HP Hc HG Hh HA Hb HAt HGt HkP]. rewrite Hpp, Hb, HA, Hp0, Hb0, HA0.
  split; auto. split; auto. exists M. auto.
Qed.
Print Assumptions C33_dense_used.

Example C33_dense_case : let w := demo_dense FA in
  d_p w <> 0 /\ d_A w <> None /\ d_b w <> None /\ d_perm w <> None /\ d_b (mkDense (d_n w) (d_m w) (d_p w) (d_P w) (d_A w) (d_G w) (d_c w) (d_h w) None (d_perm w) 20) = None.
Proof. cbn. repeat split; discriminate. Qed.
