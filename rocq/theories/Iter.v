(** One iteration of QP_SOLVE as a function of the iterate, and the proof that the model computes it
    without undefined behaviour. *)
From Coq Require Import ZArith Reals List Lia Lra Bool.
From RecordUpdate Require Import RecordUpdate.
From Verif Require Import Res Arith Lists MSparse Csc SemVec TransposeProofs KktProofs MLdl MSolver
  LdlSpec LdlSym LdlNum LdlFun VecOps.
Import ListNotations.
Open Scope Z_scope.
Open Scope res_scope.

(** The data of a problem as functions: dimensions, matrices column by column, vectors, sigma_d, the
    ordering with its inverse, the elimination tree, and the KKT matrix that setup assembled (with -1 in place of
    the scaling).  The residuals read the caller's P, A, G at every iteration; the KKT matrix is assembled once, so
    the two drift apart when the caller changes the values of P, A or G. *)
Record prob (F : Type) : Type := mkProbK {
  pn : Z; pm : Z; pp : Z;
  pP : cols F; pA : cols F; pG : cols F;
  pc : Z -> F; pb : Z -> F; ph : Z -> F;
  psd : F;
  pPf : Z -> Z; pQf : Z -> Z; ppar : Z -> Z;
  pK : cols F
}.
Arguments mkProbK {F}.
Arguments pn {F}. Arguments pm {F}. Arguments pp {F}. Arguments pP {F}. Arguments pA {F}.
Arguments pG {F}. Arguments pc {F}. Arguments pb {F}. Arguments ph {F}. Arguments psd {F}.
Arguments pPf {F}. Arguments pQf {F}. Arguments ppar {F}. Arguments pK {F}.

(** The problem right after setup. *)
Notation mkProb A n m p cP cA cG c b h sd Pf Qf par :=
  (mkProbK n m p cP cA cG c b h sd Pf Qf par (kkt_col A n p cP cA cG (minus_one A))) (only parsing).

Definition pN {F} (B : prob F) : Z := pn B + pp B + pm B.

(** A conservative set of "good" values for s and z, closed under what the solver does with them.
    Instances: every value, when all operations are defined; the positive reals, in exact arithmetic. *)
Record Safe (A : Arith) (ps : car A -> Prop) : Prop := mkSafe {
  sf_div : forall x z, ps z -> exists q, fdiv A x z = Ok q;
  sf_divm : forall x m, 1 <= m -> exists q, fdiv A x (fofZ A m) = Ok q;
  sf_sqrt : forall s z, ps s -> ps z -> exists q, fsqrt A (fmul A s z) = Ok q;
  sf_norm : forall v k, exists q, fsqrt A (dotF A v v k) = Ok q;
  sf_neg : neg_div A;
  sf_rho : forall x s z m, 1 <= m -> (forall i, 0 <= i < m -> ps (s i)) -> (forall i, 0 <= i < m -> ps (z i)) ->
             exists q, fdiv A x (dotF A s z m) = Ok q;
  sf_tol1 : exists q, fsqrt A (fofZ A 3) = Ok q;
  sf_tol2 : forall x, exists q, fdiv A x (sq A (fofZ A 3)) = Ok q;
  sf_piv : div_ok A;
  sf_step : forall v d m i, (forall i, 0 <= i < m -> ps (v i)) -> 0 <= i < m ->
             ps (axpyF A v d (MIN A (fmul A (fdec A 99 100) (stepF A v d m)) (f1 A)) i);
  sf_init_s : forall v m i, 0 <= i < m ->
     let ap := fopp A (fst (minmaxF A v m)) in
     ps (if flt A ap (f0 A) then v i else fadd A (v i) (fadd A (f1 A) ap));
  sf_init_z : forall v m i, 0 <= i < m ->
     let ad := snd (minmaxF A v m) in
     ps (if flt A ad (f0 A) then fopp A (v i) else fadd A (fopp A (v i)) (fadd A (f1 A) ad))
}.

Section Iter.
Variable A : Arith.
Notation F := (car A).
Notation zero := (f0 A).
Notation one := (f1 A).
Variable B : prob F.
Notation n := (pn B).
Notation m := (pm B).
Notation p := (pp B).
Notation N := (pN B).

(** ** The functional iteration *)

Record point : Type := mkPt { ptX : Z -> F; ptY : Z -> F; ptZ : Z -> F; ptS : Z -> F }.

Section At.
Variable pt : point.
Notation X := (ptX pt).
Notation Y := (ptY pt).
Notation Zv := (ptZ pt).
Notation Sv := (ptS pt).

Definition rxF : Z -> F :=
  axpyF A (fun j => let a := tmultF A (pG B) Zv j (multF A (pP B) n X j zero) in
                    if p =? 0 then a else tmultF A (pA B) Y j a) (pc B) (fopp A one).
Definition ryF : Z -> F := axpyF A (fun i => multF A (pA B) n X i zero) (pb B) one.
Definition rzF (i : Z) : F := fadd A (multF A (pG B) n X i zero) (fsub A (ph B i) (Sv i)).
Definition nrm (v : Z -> F) (k : Z) : F := sq A (dotF A v v k).
Definition nmuF : F := dv A (dotF A Sv Zv m) (fofZ A m).
Definition fvalF : F := objF A (pP B) (pc B) X n.

(** Statistics after the residual computation. *)
Definition resid_stats (st : stats F) : stats F :=
  mkStats (IterationCount st) (Some (nrm rxF n)) (if p =? 0 then n_ry st else Some (nrm ryF p))
    (Some (nrm rzF m)) (Some nmuF) (alpha_p st) (alpha_d st) (Some fvalF) (Flag st) (AMD_RESULT st)
    (resolve_kkt st).

Definition stopF (o : settings F) : bool :=
  let tol := dv A (reltol o) (sq A (fofZ A 3)) in
  flt A (nrm rxF n) tol && flt A (nrm rzF m) tol && (if p =? 0 then true else flt A (nrm ryF p) tol) &&
  flt A nmuF (abstol o).

Definition lamF (i : Z) : F := sq A (fmul A (Sv i) (Zv i)).
Definition muF : F := dv A (dotF A lamF lamF m) (fofZ A m).

(** The matrix that is factorised. *)
Definition K0 : cols F := pK B.
Definition KF : cols F := ovl K0 (updw A K0 (n + p) m (scalF A Sv Zv)).
Definition solK (b : Z -> F) : Z -> F := solF A N KF (pPf B) (pQf B) (ppar B) b.
Definition rhsF (ds : Z -> F) : Z -> F := stack3 A n p rxF ryF (rhs3 A rzF ds Zv).

(** Direction for a complementarity right-hand side [ds]. *)
Definition dirU (ds : Z -> F) : Z -> F := solK (rhsF ds).
Definition dirX (ds : Z -> F) (i : Z) : F := dirU ds (0 + i).
Definition dirY (ds : Z -> F) (i : Z) : F := dirU ds (n + i).
Definition dirZ (ds : Z -> F) (i : Z) : F := dirU ds (n + p + i).
Definition dirS (ds : Z -> F) : Z -> F := recF A ds Sv (dirZ ds) Zv.

(** Predictor. *)
Definition ds1 : Z -> F := dsF_newton A lamF.
Definition ap1 : F := stepF A Sv (dirS ds1) m.
Definition ad1 : F := stepF A Zv (dirZ ds1) m.
Definition rho1 : F := rhoF A Sv (dirS ds1) Zv (dirZ ds1) ap1 ad1 m.
Definition sig1 : F := let r := MIN A one rho1 in MAX A (psd B) (fmul A (fmul A r r) r).

(** Centering parameter and right-hand side of the step that is taken; [sg] is options->sigma. *)
Definition predq (sg : F) : bool := flt A (psd B) sg.
Definition sigF (sg : F) : F := if predq sg then sig1 else psd B.
Definition dsFin (sg : F) : Z -> F :=
  if predq sg then dsF_corr A lamF (dirS ds1) (dirZ ds1) sig1 muF else dsF_center A lamF (psd B) muF.

Definition apF (sg : F) : F := MIN A (fmul A (fdec A 99 100) (stepF A Sv (dirS (dsFin sg)) m)) one.
Definition adF (sg : F) : F := MIN A (fmul A (fdec A 99 100) (stepF A Zv (dirZ (dsFin sg)) m)) one.

Definition nextF (sg : F) : point :=
  mkPt (axpyF A X (dirX (dsFin sg)) (apF sg)) (axpyF A Y (dirY (dsFin sg)) (adF sg))
       (axpyF A Zv (dirZ (dsFin sg)) (adF sg)) (axpyF A Sv (dirS (dsFin sg)) (apF sg)).

Definition step_stats (sg : F) (st : stats F) : stats F :=
  (resid_stats st) <| alpha_p := apF sg |> <| alpha_d := adF sg |>
    <| IterationCount := IterationCount st + 1 |> <| resolve_kkt := Some (if predq sg then 0 else 1) |>.

End At.

(** ** What the handle holds *)

(** Dimensions, user data, sizes of the work blocks, KKT structure.  The KKT matrix has the pattern and
    the constant entries of [K0]; entries at update positions are arbitrary. *)
Record Base (q : qp F) : Prop := mkBase {
  b_n : q_n q = n; b_m : q_m q = m; b_p : q_p q = p; b_sd : q_sigma_d q = psd B;
  b_n0 : 0 <= n; b_m1 : 1 <= m; b_p0 : 0 <= p;
  b_P : Repr (q_P q) n n (pP B);
  b_G : Repr (q_G q) m n (pG B);
  b_A : p <> 0 -> exists M bb, q_A q = Some M /\ Repr M p n (pA B) /\ q_b q = Some bb /\ vec bb p (pb B);
  b_c : vec (q_c q) n (pc B);
  b_h : vec (q_h q) m (ph B);
  b_rx : zlen (q_rx q) = n; b_ry : zlen (q_ry q) = p; b_rz : zlen (q_rz q) = m;
  b_delta : zlen (q_delta q) = N;
  b_dx : zlen (q_delta_x q) = n; b_dy : zlen (q_delta_y q) = p;
  b_dz : zlen (q_delta_z q) = m; b_ds : zlen (q_delta_s q) = m;
  b_dds : zlen (q_ds q) = m; b_lam : zlen (q_lambda q) = m; b_temp : zlen (q_temp q) = n;
  b_kb : zlen (k_b (q_kkt q)) = N;
  b_forest : forest N (ppar B) (brows (pPf B) (pQf B) K0);
  b_pos : 1 <= start K0 (n + p + 1);
  b_K : exists cap w, KktRep (k_mat (q_kkt q)) N cap (ovl K0 w) /\
          (forall d q v, w q = Some v -> exists v', updw A K0 (n + p) m d q = Some v');
  b_sym : SymKkt A N K0 (pPf B) (pQf B) (ppar B) (q_kkt q)
}.

Record Pt (q : qp F) (pt : point) : Prop := mkPtOk {
  p_x : is_vec (q_x q) n (ptX pt);
  p_y : is_vec (q_y q) p (ptY pt);
  p_z : is_vec (q_z q) m (ptZ pt);
  p_s : is_vec (q_s q) m (ptS pt)
}.

(** Fields no call after setup changes. *)
Record frame (q q' : qp F) : Prop := mkFrame {
  fr_n : q_n q' = q_n q; fr_m : q_m q' = q_m q; fr_p : q_p q' = q_p q; fr_sd : q_sigma_d q' = q_sigma_d q;
  fr_P : q_P q' = q_P q; fr_c : q_c q' = q_c q; fr_G : q_G q' = q_G q; fr_h : q_h q' = q_h q;
  fr_A : q_A q' = q_A q; fr_b : q_b q' = q_b q; fr_At : q_At q' = q_At q; fr_Gt : q_Gt q' = q_Gt q;
  fr_kP : k_P (q_kkt q') = k_P (q_kkt q)
}.

Lemma frame_refl q : frame q q.
Proof. split; reflexivity. Qed.

Lemma frame_trans q1 q2 q3 : frame q1 q2 -> frame q2 q3 -> frame q1 q3.
Proof. intros [] []. split; congruence. Qed.

(** ** Residuals *)

Lemma computeresiduals_ok ps q pt : Safe A ps -> Base q -> Pt q pt ->
  wp (computeresiduals A q) (fun q' => exists rx ry rz,
     q' = q <| q_rx := rx |> <| q_ry := ry |> <| q_rz := rz |>
            <| q_stats := (resid_stats pt (q_stats q)) <| fval := fval (q_stats q) |> |> /\
     is_vec rx n (rxF pt) /\ zlen ry = p /\ (p <> 0 -> is_vec ry p (ryF pt)) /\ is_vec rz m (rzF pt)).
Proof.
  intros SF HB HP. unfold computeresiduals.
  pose proof (b_n0 _ HB) as Hn0. pose proof (b_m1 _ HB) as Hm1. pose proof (b_p0 _ HB) as Hp0.
  destruct HP as [Hx Hy Hz Hs].
  rewrite ?(b_n _ HB), ?(b_m _ HB), ?(b_p _ HB).
  wb. eapply wp_mono.
  { eapply (Multiply_ok A _ n n (pP B) _ _ (ptX pt) (fun _ => zero) true);
      [apply (b_P _ HB)|apply is_vec_vec; exact Hx|apply (b_rx _ HB)|discriminate|auto]. }
  intros rx1 H1. wb. eapply wp_mono.
  { eapply (TransMultiply_ok A _ m n (pG B) _ _ (ptZ pt) _ false);
      [apply (b_G _ HB)|apply is_vec_vec; exact Hz|apply H1|intros _; exact H1|discriminate]. }
  intros rx2 H2. wb.
  apply (wp_mono _ (fun rx3 => is_vec rx3 n (fun j =>
      let a := tmultF A (pG B) (ptZ pt) j (multF A (pP B) n (ptX pt) j zero) in
      if p =? 0 then a else tmultF A (pA B) (ptY pt) j a))).
  { destruct (Z.eqb_spec p 0) as [E|E]; cbn [negb].
    - wok. exact H2.
    - destruct (b_A _ HB E) as [M [bb [E1 [E2 [E3 E4]]]]]. rewrite E1. wb. wok.
      eapply (TransMultiply_ok A _ p n (pA B) _ _ (ptY pt) _ false);
        [exact E2|apply is_vec_vec; exact Hy|apply H2|intros _; exact H2|discriminate]. }
  intros rx3 H3. wb. eapply wp_mono.
  { eapply (updatevariables_ok A _ _ (fopp A one)); [exact H3|lia|apply (b_c _ HB)]. }
  intros rx4 H4. fold (rxF pt) in H4.
  rewrite (norm_ok A rx4 n (rxF pt)) by (apply is_vec_vec; exact H4).
  rewrite (sq_ok A) by (apply (sf_norm _ _ SF)). wb. wok. wb.

  match goal with |- wp _ ?Q => set (post := Q) end.
  apply (wp_mono _ (fun q' => exists ry, q' = q <| q_rx := rx4 |> <| q_ry := ry |>
      <| q_stats := (q_stats q) <| n_rx := Some (nrm (rxF pt) n) |>
           <| n_ry := if p =? 0 then n_ry (q_stats q) else Some (nrm (ryF pt) p) |> |> /\
      zlen ry = p /\ (p <> 0 -> is_vec ry p (ryF pt)))).
  { change (q_p (q <| q_rx := rx4 |> <| q_stats := _ |>)) with (q_p q). rewrite (b_p _ HB).
    destruct (Z.eqb_spec p 0) as [E|E]; cbn [negb].
    - wok. exists (q_ry q). split; [|split; [apply (b_ry _ HB)|congruence]].
      destruct q as []. destruct q_stats as []. reflexivity.
    - destruct (b_A _ HB E) as [M [bb [E1 [E2 [E3 E4]]]]].
      cbn. rewrite E1. cbn. apply wp_bind. eapply wp_mono.
      { eapply (Multiply_ok A _ p n (pA B) _ _ (ptX pt) (fun _ => zero) true);
          [exact E2|apply is_vec_vec; exact Hx|apply (b_ry _ HB)|discriminate|auto]. }
      intros ry1 G1. rewrite E3. cbn. apply wp_bind. eapply wp_mono.
      { eapply (updatevariables_ok A _ _ one); [exact G1|lia|exact E4]. }
      intros ry2 G2. fold (ryF pt) in G2.
      rewrite (norm_ok A ry2 p (ryF pt)) by (apply is_vec_vec; exact G2).
      rewrite (sq_ok A) by (apply (sf_norm _ _ SF)). wb. wok. wok.
      exists ry2. split; [reflexivity|]. split; [apply G2|auto]. }
  intros q1 [ry [-> [Lry Hry]]]. unfold post; clear post. cbn.
  wb. eapply wp_mono.
  { eapply (Multiply_ok A _ m n (pG B) _ _ (ptX pt) (fun _ => zero) true);
      [apply (b_G _ HB)|apply is_vec_vec; exact Hx|apply (b_rz _ HB)|discriminate|auto]. }
  intros rz1 [L1 R1]. wb. eapply (wp_mono _ (fun rz => is_vec rz m (rzF pt))).
  { rewrite ?(b_m _ HB). apply (wp_fill (rzF pt) 0 0 m); try lia.
    - intros i a' Hi L' Q1 Q2. wb. eapply wp_rd; [rewrite Q2 by lia; apply R1; lia|].
      wb. eapply wp_rd; [apply (b_h _ HB); auto|]. wb. eapply wp_rd; [apply Hs; auto|].
      rewrite Z.add_0_r. apply wp_wr_eq. lia.
    - intros a' L' Q1 _. split; [lia|]. intros i Hi. rewrite Q1 by lia. f_equal. f_equal. lia. }
  intros rz H5. rewrite ?(b_m _ HB).
  rewrite (norm_ok A rz m (rzF pt)) by (apply is_vec_vec; exact H5).
  rewrite (sq_ok A) by (apply (sf_norm _ _ SF)). wb. wok.
  rewrite (innerproduct_ok A _ _ m (ptS pt) (ptZ pt)) by (apply is_vec_vec; assumption).
  wb. wok. rewrite (dv_ok A) by (apply (sf_divm _ _ SF); lia). wb. wok. wok.
  exists rx4, ry, rz. split; [reflexivity|]. auto.
Qed.

(** ** Linear systems *)

Notation Pf := (pPf B).
Notation Qf := (pQf B).
Notation par := (ppar B).

Lemma K0_fst pt j : map fst (KF pt j) = map fst (K0 j).
Proof. apply ovl_fst. Qed.

Lemma forest_KF pt : forest N par (brows Pf Qf K0) -> forest N par (brows Pf Qf (KF pt)).
Proof. apply forest_same. intros j. symmetry. apply K0_fst. Qed.

(** The structure holds the matrix of the current point. *)
Record KMid (pt : point) (k : kkt F) : Prop := mkKMid {
  km_mat : exists cap, KktRep (k_mat k) N cap (KF pt);
  km_sym : SymKkt A N K0 Pf Qf par k
}.

Lemma km_sym' pt k : KMid pt k -> SymKkt A N (KF pt) Pf Qf par k.
Proof. intros [_ H]. eapply SymKkt_same; [|exact H]. intros j. symmetry. apply K0_fst. Qed.

Lemma do_update_kkt_ok ps q pt : Safe A ps -> Base q -> Pt q pt -> (forall i, 0 <= i < m -> ps (ptZ pt i)) ->
  wp (do_update_kkt A q) (fun q' => exists K', q' = q <| q_kkt := (q_kkt q) <| k_mat := K' |> |> /\
     KMid pt (q_kkt q')).
Proof.
  intros SF HB HP Hz. unfold do_update_kkt. destruct (b_K _ HB) as [cap [w [HK Hw]]].
  pose proof (b_n0 _ HB) as Hn0. pose proof (b_m1 _ HB) as Hm1. pose proof (b_p0 _ HB) as Hp0.
  rewrite (b_n _ HB), (b_m _ HB), (b_p _ HB). wb. eapply wp_mono.
  { eapply (updatekktmatrix_ok A _ N cap (ovl K0 w) _ _ _ _ _ _ m n p (ptS pt) (ptZ pt));
      [exact HK|lia|lia|lia|reflexivity| | | |].
    - intros _. rewrite ovl_start. apply (b_pos _ HB).
    - apply is_vec_vec, HP.
    - apply is_vec_vec, HP.
    - intros i Hi. apply (sf_div _ _ SF). auto. }
  intros K' [HK' _]. wok. exists K'. split; [reflexivity|]. split.
  - exists cap. cbn. eapply KktRep_ovl_ext; [exact HK'|]. intros j Hj. unfold KF.
    rewrite <- (ovl_ovl K0 w) by (apply Hw).
    unfold ovl at 1 3. apply ovl_l_ext. intros t _. apply updw_start. intros jj. apply ovl_start.
  - destruct (b_sym _ HB). split; assumption.
Qed.

Lemma Base_stats q st : Base q -> Base (q <| q_stats := st |>).
Proof. intros []. split; assumption. Qed.

Lemma Base_KMid q pt k : Base q -> KMid pt k -> zlen (k_b k) = N -> Base (q <| q_kkt := k |>).
Proof.
  intros [] [[cap HK] HS] Hb. split; try assumption.
  exists cap, (updw A K0 (n + p) m (scalF A (ptS pt) (ptZ pt))). split; [exact HK|].
  intros d q0 v. apply updw_dom. lia.
Qed.

Lemma do_update_b_ok ps q pt ds : Safe A ps -> Base q -> Pt q pt -> (forall i, 0 <= i < m -> ps (ptZ pt i)) ->
  is_vec (q_rx q) n (rxF pt) -> (p <> 0 -> is_vec (q_ry q) p (ryF pt)) -> is_vec (q_rz q) m (rzF pt) ->
  is_vec (q_ds q) m ds ->
  wp (do_update_b A q) (fun q' => exists b, q' = q <| q_kkt := (q_kkt q) <| k_b := b |> |> /\ is_vec b N (rhsF pt ds)).
Proof.
  intros SF HB HP Hz H1 H2 H3 H4. unfold do_update_b.
  pose proof (b_n0 _ HB) as Hn0. pose proof (b_m1 _ HB) as Hm1. pose proof (b_p0 _ HB) as Hp0.
  rewrite (b_n _ HB), (b_m _ HB), (b_p _ HB). wb. eapply wp_mono.
  { eapply (updatekktmatrix_b_ok A _ _ _ _ _ _ n m p (rxF pt) (ryF pt) (rzF pt) ds (ptZ pt));
      [lia|lia|lia|apply (b_kb _ HB)|apply is_vec_vec; exact H1| |apply is_vec_vec; exact H3|
       apply is_vec_vec; exact H4|apply is_vec_vec; apply HP|].
    - destruct (Z.eq_dec p 0) as [E|E]; [intros i Hi; lia|]. apply is_vec_vec. auto.
    - intros i Hi. apply (sf_div _ _ SF). auto. }
  intros b Hb. wok. exists b. split; [reflexivity|exact Hb].
Qed.

(** Solve with a stored factor and copy the direction out. *)
Lemma kktsolve_1_ok ps q pt ds : Safe A ps -> Base q -> Pt q pt -> (forall i, 0 <= i < m -> ps (ptZ pt i)) ->
  KMid pt (q_kkt q) -> is_vec (q_ds q) m ds -> is_vec (k_b (q_kkt q)) N (rhsF pt ds) ->
  wp (kktsolve_1 A q) (fun r => fst r = true /\ exists k delta dz d_s,
     snd r = q <| q_kkt := k |> <| q_delta := delta |> <| q_delta_z := dz |> <| q_delta_s := d_s |> /\
     KMid pt k /\ FacKkt A N (KF pt) Pf Qf par k /\ zlen (k_b k) = N /\ zlen delta = N /\
     k_P k = k_P (q_kkt q) /\
     is_vec dz m (dirZ pt ds) /\ is_vec d_s m (dirS pt ds)).
Proof.
  intros SF HB HP Hz HM Hds Hb. unfold kktsolve_1.
  pose proof (b_n0 _ HB) as Hn0. pose proof (b_m1 _ HB) as Hm1. pose proof (b_p0 _ HB) as Hp0.
  pose proof (km_mat _ _ HM) as [cap HK]. pose proof (forest_KF pt (b_forest _ HB)) as HF.
  wb. eapply wp_mono.
  { eapply (kkt_numeric_ok A N (KF pt) Pf Qf par HF cap); [apply (sf_piv _ _ SF)|exact HK|apply km_sym'; auto]. }
  intros [d k1] [Ed [HS1 [HF1 [E1 [E2 [E3 [E4 [E5 [E6 [E7 E8]]]]]]]]]]. cbn [fst snd] in *. subst d.
  rewrite (kr_sn _ _ _ _ HK), Z.eqb_refl. wb. eapply wp_mono.
  { eapply (ldl_solve_ok A N (KF pt) Pf Qf par HF cap k1 (q_delta q) (rhsF pt ds));
      [apply (sf_piv _ _ SF)|rewrite E1; exact HK|exact HS1|exact HF1|apply (b_delta _ HB)|rewrite E2; exact Hb]. }
  intros [delta b] [H1 H2]. cbn [fst snd] in *. change (solF A N (KF pt) Pf Qf par (rhsF pt ds)) with (dirU pt ds) in H2.
  rewrite (b_n _ HB), (b_m _ HB), (b_p _ HB).
  wb. eapply wp_mono.
  { eapply (copy_block_ok A _ b (n + p) m N); [lia|lia|unfold pN; lia|apply (b_dz _ HB)|apply is_vec_vec; exact H2]. }
  intros dz H3. change (fun i => dirU pt ds (n + p + i)) with (dirZ pt ds) in H3.
  wb. eapply wp_mono.
  { eapply (recover_ds_ok A _ _ _ _ _ m ds (ptS pt) (dirZ pt ds) (ptZ pt));
      [lia|apply (b_ds _ HB)|apply is_vec_vec; exact Hds|apply is_vec_vec, HP|apply is_vec_vec; exact H3|
       apply is_vec_vec, HP|]. intros i x Hi. apply (sf_div _ _ SF). auto. }
  intros d_s H4. wok. cbn [fst snd]. split; [reflexivity|].
  exists (k1 <| k_b := b |>), delta, dz, d_s. split; [reflexivity|].
  split; [|split; [|split; [apply H2|split; [apply H1|split; [exact E3|auto]]]]].
  - split; [exists cap; cbn; rewrite E1; exact HK|].
    apply (SymKkt_same A N Pf Qf par (KF pt) K0); [apply K0_fst|]. destruct HS1. split; assumption.
  - destruct HF1. split; assumption.
Qed.

Lemma kktsolve_2_ok ps q pt ds rk : Safe A ps -> Base q -> Pt q pt -> (forall i, 0 <= i < m -> ps (ptZ pt i)) ->
  KMid pt (q_kkt q) -> resolve_kkt (q_stats q) = Some rk ->
  (rk = 0 -> FacKkt A N (KF pt) Pf Qf par (q_kkt q)) ->
  is_vec (q_ds q) m ds -> is_vec (k_b (q_kkt q)) N (rhsF pt ds) ->
  wp (kktsolve_2 A q) (fun q' => exists k delta dx dy dz d_s,
     q' = q <| q_kkt := k |> <| q_delta := delta |> <| q_delta_x := dx |> <| q_delta_y := dy |>
            <| q_delta_z := dz |> <| q_delta_s := d_s |> /\
     KMid pt k /\ FacKkt A N (KF pt) Pf Qf par k /\ zlen (k_b k) = N /\ zlen delta = N /\ k_P k = k_P (q_kkt q) /\
     is_vec dx n (dirX pt ds) /\ is_vec dy p (dirY pt ds) /\
     is_vec dz m (dirZ pt ds) /\ is_vec d_s m (dirS pt ds)).
Proof.
  intros SF HB HP Hz HM Hrk Hfac Hds Hb. unfold kktsolve_2.
  pose proof (b_n0 _ HB) as Hn0. pose proof (b_m1 _ HB) as Hm1. pose proof (b_p0 _ HB) as Hp0.
  pose proof (km_mat _ _ HM) as [cap HK]. pose proof (forest_KF pt (b_forest _ HB)) as HF.
  rewrite Hrk. wb. wok. wb.
  apply (wp_mono _ (fun k1 => KktRep (k_mat k1) N cap (KF pt) /\ SymKkt A N (KF pt) Pf Qf par k1 /\
     FacKkt A N (KF pt) Pf Qf par k1 /\ k_b k1 = k_b (q_kkt q) /\ k_P k1 = k_P (q_kkt q))).
  { destruct (Z.eqb_spec rk 0) as [E|E]; cbn [negb].
    - wok. split; [exact HK|]. split; [apply km_sym'; auto|]. auto.
    - wb. eapply wp_mono.
      { eapply (kkt_numeric_ok A N (KF pt) Pf Qf par HF cap); [apply (sf_piv _ _ SF)|exact HK|apply km_sym'; auto]. }
      intros [d k1] [Ed [HS1 [HF1 [E1 [E2 [E3 _]]]]]]. cbn [fst snd] in *. wok. rewrite E1. auto. }
  intros k1 [HK1 [HS1 [HF1 [Eb EP]]]]. wb. eapply wp_mono.
  { eapply (ldl_solve_ok A N (KF pt) Pf Qf par HF cap k1 (q_delta q) (rhsF pt ds));
      [apply (sf_piv _ _ SF)|exact HK1|exact HS1|exact HF1|apply (b_delta _ HB)|rewrite Eb; exact Hb]. }
  intros [delta b] [H1 H2]. cbn [fst snd] in *. change (solF A N (KF pt) Pf Qf par (rhsF pt ds)) with (dirU pt ds) in H2.
  rewrite (b_n _ HB), (b_m _ HB), (b_p _ HB).
  wb. eapply wp_mono.
  { replace n with (0 + n) at 1 by lia.
    eapply (copy_block_ok A _ b 0 n N); [lia|lia|unfold pN; lia|apply (b_dx _ HB)|apply is_vec_vec; exact H2]. }
  intros dx Hx. change (fun i => dirU pt ds (0 + i)) with (dirX pt ds) in Hx.
  wb. eapply wp_mono.
  { eapply (copy_block_ok A _ b n p N); [lia|lia|unfold pN; lia|apply (b_dy _ HB)|apply is_vec_vec; exact H2]. }
  intros dy Hy. change (fun i => dirU pt ds (n + i)) with (dirY pt ds) in Hy.
  wb. eapply wp_mono.
  { eapply (copy_block_ok A _ b (n + p) m N); [lia|lia|unfold pN; lia|apply (b_dz _ HB)|apply is_vec_vec; exact H2]. }
  intros dz H3. change (fun i => dirU pt ds (n + p + i)) with (dirZ pt ds) in H3.
  wb. eapply wp_mono.
  { eapply (recover_ds_ok A _ _ _ _ _ m ds (ptS pt) (dirZ pt ds) (ptZ pt));
      [lia|apply (b_ds _ HB)|apply is_vec_vec; exact Hds|apply is_vec_vec, HP|apply is_vec_vec; exact H3|
       apply is_vec_vec, HP|]. intros i x Hi. apply (sf_div _ _ SF). auto. }
  intros d_s H4. wok.
  exists (k1 <| k_b := b |>), delta, dx, dy, dz, d_s. split; [reflexivity|].
  split; [|split; [destruct HF1; split; assumption|split; [apply H2|split; [apply H1|split; [exact EP|auto]]]]].
  split; [exists cap; exact HK1|].
  apply (SymKkt_same A N Pf Qf par (KF pt) K0); [apply K0_fst|]. destruct HS1. split; assumption.
Qed.

(** ** The two ways to the final right-hand side *)

(** After the residuals and lambda, mu. *)
Record Mid (q0 : qp F) (pt : point) (q : qp F) : Prop := mkMid {
  md_base : Base q;
  md_pt : Pt q pt;
  md_rx : is_vec (q_rx q) n (rxF pt);
  md_ry : p <> 0 -> is_vec (q_ry q) p (ryF pt);
  md_rz : is_vec (q_rz q) m (rzF pt);
  md_lam : is_vec (q_lambda q) m (lamF pt);
  md_mu : q_mu q = Some (muF pt);
  md_frame : frame q0 q;
  md_opt : q_options q = q_options q0;
  md_stats : q_stats q = resid_stats pt (q_stats q0)
}.

(** Before kktsolve_2. *)
Record Ready (q0 : qp F) (pt : point) (sg : F) (q : qp F) : Prop := mkReady {
  rd_base : Base q;
  rd_pt : Pt q pt;
  rd_kmid : KMid pt (q_kkt q);
  rd_rk : resolve_kkt (q_stats q) = Some (if predq sg then 0 else 1);
  rd_fac : predq sg = true -> FacKkt A N (KF pt) Pf Qf par (q_kkt q);
  rd_ds : is_vec (q_ds q) m (dsFin pt sg);
  rd_b : is_vec (k_b (q_kkt q)) N (rhsF pt (dsFin pt sg));
  rd_frame : frame q0 q;
  rd_opt : q_options q = (q_options q0) <| sigma := sigF pt sg |>;
  rd_stats : exists ap ad, q_stats q = (resid_stats pt (q_stats q0)) <| alpha_p := ap |> <| alpha_d := ad |>
                <| resolve_kkt := Some (if predq sg then 0 else 1) |>
}.

Arguments form_ds : simpl never.
Ltac base H := destruct H; split; cbn; try assumption.

Lemma frame_kkt_mat q K : frame q (q <| q_kkt := (q_kkt q) <| k_mat := K |> |>).
Proof. split; reflexivity. Qed.
Lemma frame_kkt_b q b : frame q (q <| q_kkt := (q_kkt q) <| k_b := b |> |>).
Proof. split; reflexivity. Qed.

Lemma centering_branch_ok ps q0 q pt sg : Safe A ps -> (forall i, 0 <= i < m -> ps (ptZ pt i)) ->
  Mid q0 pt q -> predq sg = false -> wp (centering_branch A q) (Ready q0 pt sg).
Proof.
  intros SF Hz HM Hsg. unfold centering_branch. pose proof HM as [HB HP Hrx Hry Hrz Hl Hmu Hfr Ho Hst].
  assert (HB1 : Base (q <| q_options := (q_options q) <| sigma := q_sigma_d q |> |>)) by (base HB).
  pose proof (b_m1 _ HB) as Hm1.
  unfold do_form_ds. cbn. rewrite Hmu. cbn. rewrite (b_m _ HB), (b_sd _ HB). wb. wb. eapply wp_mono.
  { eapply (form_ds_center_ok A _ _ _ _ (psd B) (muF pt) m); [lia|apply (b_dds _ HB)|apply is_vec_vec; exact Hl]. }
  intros ds Hds. wok.
  set (q1 := q <| q_options := _ |> <| q_ds := ds |>).
  assert (HB2 : Base q1) by (unfold q1; base HB; apply Hds).
  assert (HP2 : Pt q1 pt) by (destruct HP; split; assumption).
  wb. eapply wp_mono; [apply (do_update_kkt_ok ps q1 pt); auto|].
  intros q2 [K' [-> HK]].
  wb. eapply wp_mono.
  { eapply (do_update_b_ok ps _ pt (dsF_center A (lamF pt) (psd B) (muF pt))); eauto.
    - apply Base_KMid with (pt := pt); auto. apply (b_kb _ HB2).
    - destruct HP; split; assumption. }
  intros q3 [b [-> Hb]]. wok.
  assert (Eds : dsFin pt sg = dsF_center A (lamF pt) (psd B) (muF pt)) by (unfold dsFin; rewrite Hsg; reflexivity).
  split; cbn.
  - apply Base_stats. apply Base_KMid with (pt := pt).
    + apply Base_KMid with (pt := pt); auto. apply (b_kb _ HB2).
    + destruct HK as [[cap HK] HS]. split; [exists cap; exact HK|]. destruct HS; split; assumption.
    + apply Hb.
  - destruct HP; split; assumption.
  - destruct HK as [[cap HK] HS]. split; [exists cap; exact HK|]. destruct HS; split; assumption.
  - rewrite Hsg. reflexivity.
  - rewrite Hsg. discriminate.
  - rewrite Eds. exact Hds.
  - rewrite Eds. exact Hb.
  - destruct Hfr. split; cbn; assumption.
  - rewrite Ho. unfold sigF. rewrite Hsg. reflexivity.
  - rewrite Hst, Hsg. exists (alpha_p (q_stats q0)), (alpha_d (q_stats q0)). reflexivity.
Qed.

Lemma predictor_branch_ok ps q0 q pt sg : Safe A ps ->
  (forall i, 0 <= i < m -> ps (ptZ pt i)) -> (forall i, 0 <= i < m -> ps (ptS pt i)) ->
  Mid q0 pt q -> predq sg = true -> wp (predictor_branch A q) (fun r => fst r = true /\ Ready q0 pt sg (snd r)).
Proof.
  intros SF Hz Hs HM Hsg. unfold predictor_branch. pose proof HM as [HB HP Hrx Hry Hrz Hl Hmu Hfr Ho Hst].
  pose proof (b_m1 _ HB) as Hm1.
  unfold do_form_ds at 1. rewrite Hmu, (b_m _ HB). wb. wb. wok. wb. eapply wp_mono.
  { eapply (form_ds_newton_ok A _ _ _ _ _ _ m); [lia|apply (b_dds _ HB)|apply is_vec_vec; exact Hl]. }
  intros dsv1 Hds1. wok. change (dsF_newton A (lamF pt)) with (ds1 pt) in Hds1.
  set (q1 := q <| q_ds := dsv1 |>).
  assert (HB1 : Base q1) by (unfold q1; base HB; apply Hds1).
  assert (HP1 : Pt q1 pt) by (destruct HP; split; assumption).
  wb. eapply wp_mono; [apply (do_update_kkt_ok ps q1 pt); auto|].
  intros q2 [K' [Eq2 HK]].
  assert (HB2 : Base q2) by (rewrite Eq2 in *; apply Base_KMid with (pt := pt); auto; apply (b_kb _ HB1)).
  assert (HP2 : Pt q2 pt) by (rewrite Eq2; destruct HP; split; assumption).
  wb. eapply wp_mono.
  { eapply (do_update_b_ok ps q2 pt (ds1 pt)); auto; rewrite Eq2; auto. }
  intros q3 [b [Eq3 Hb]].
  assert (HK3 : KMid pt (q_kkt q3)).
  { rewrite Eq3. destruct HK as [[cap HK] HS]. split; [exists cap; exact HK|]. destruct HS; split; assumption. }
  assert (HB3 : Base q3).
  { rewrite Eq3 in *. apply Base_KMid with (pt := pt); auto. apply Hb. }
  assert (HP3 : Pt q3 pt) by (rewrite Eq3, Eq2; destruct HP; split; assumption).
  wb. eapply wp_mono.
  { eapply (kktsolve_1_ok ps q3 pt (ds1 pt)); auto.
    - rewrite Eq3, Eq2. exact Hds1.
    - rewrite Eq3. exact Hb. }
  intros [ok q4] [Eok [k [delta [dz [d_s [Eq4 [HK4 [HF4 [Lb [Ld [EP [Hdz Hd_s]]]]]]]]]]]].
  cbn [fst snd] in Eok, Eq4. subst ok.
  assert (Em : q_m q4 = m) by (rewrite Eq4, Eq3, Eq2; apply (b_m _ HB)).
  rewrite (findsteplength_ok A _ _ _ _ _ (ptS pt) (dirS pt (ds1 pt)) (ptZ pt) (dirZ pt (ds1 pt))).
  2:{ apply (sf_neg _ _ SF). }
  2:{ rewrite Em. rewrite Eq4, Eq3, Eq2. apply is_vec_vec, HP. }
  2:{ rewrite Em. rewrite Eq4. apply is_vec_vec, Hd_s. }
  2:{ rewrite Em. rewrite Eq4, Eq3, Eq2. apply is_vec_vec, HP. }
  2:{ rewrite Em. rewrite Eq4. apply is_vec_vec, Hdz. }
  wb. wok. rewrite Em. fold (ap1 pt). fold (ad1 pt). cbn [q_s q_z q_delta_s q_delta_z q_m].
  wb.
  match goal with |- wp (formrho A ?a1 ?a2 ?a3 ?a4 _ _ _) _ =>
    change a1 with (q_s q4); change a2 with (q_delta_s q4); change a3 with (q_z q4); change a4 with (q_delta_z q4) end.
  match goal with |- wp (formrho A _ _ _ _ _ _ ?mm) _ => change mm with (q_m q4) end. rewrite Em.
  rewrite (formrho_ok A _ _ _ _ _ _ m (ptS pt) (dirS pt (ds1 pt)) (ptZ pt) (dirZ pt (ds1 pt))).
  2:{ rewrite Eq4, Eq3, Eq2. apply is_vec_vec, HP. }
  2:{ rewrite Eq4. apply is_vec_vec, Hd_s. }
  2:{ rewrite Eq4, Eq3, Eq2. apply is_vec_vec, HP. }
  2:{ rewrite Eq4. apply is_vec_vec, Hdz. }
  2:{ intros x. apply (sf_rho _ _ SF); auto. }
  wok. fold (rho1 pt).
  (* centering-corrector right-hand side *)
  unfold do_form_ds. cbn [q_mu set]. wb.
  assert (Esd : q_sigma_d q4 = psd B) by (rewrite Eq4, Eq3, Eq2; apply (b_sd _ HB)).
  assert (Emu : q_mu q4 = Some (muF pt)) by (rewrite Eq4, Eq3, Eq2; exact Hmu).
  match goal with |- wp (bind (use ?t) _) _ => change t with (q_mu q4) end. rewrite Emu. wb. wok. cbn.
  rewrite Esd, Em. fold (sig1 pt). wb. eapply wp_mono.
  { eapply (form_ds_corr_ok A _ _ _ _ _ (muF pt) m (lamF pt) (dirS pt (ds1 pt)) (dirZ pt (ds1 pt))); [lia| | | |].
    - rewrite Eq4, Eq3, Eq2. apply Hds1.
    - rewrite Eq4, Eq3, Eq2. apply is_vec_vec, Hl.
    - rewrite Eq4. apply is_vec_vec, Hd_s.
    - rewrite Eq4. apply is_vec_vec, Hdz. }
  intros dsv2 Hds2. wok.
  change (MAX A (psd B) _) with (sig1 pt) in Hds2.
  match goal with |- wp (bind (do_update_b A ?x) _) _ => set (q5 := x) end.
  assert (Eds : dsFin pt sg = dsF_corr A (lamF pt) (dirS pt (ds1 pt)) (dirZ pt (ds1 pt)) (sig1 pt) (muF pt))
    by (unfold dsFin; rewrite Hsg; reflexivity).
  assert (HB5 : Base q5).
  { unfold q5. rewrite Eq4. destruct HB3. destruct HK4 as [[cap HK4] HS4].
    split; cbn; try assumption.
    - apply Hdz.
    - apply Hd_s.
    - apply Hds2.
    - exists cap, (updw A K0 (n + p) m (scalF A (ptS pt) (ptZ pt))). split; [exact HK4|].
      intros d q0' v. apply updw_dom. lia. }
  assert (HP5 : Pt q5 pt) by (unfold q5; rewrite Eq4, Eq3, Eq2; destruct HP; split; assumption).
  wb. eapply wp_mono.
  { eapply (do_update_b_ok ps q5 pt (dsFin pt sg)); auto.
    - unfold q5. rewrite Eq4, Eq3, Eq2. exact Hrx.
    - unfold q5. rewrite Eq4, Eq3, Eq2. exact Hry.
    - unfold q5. rewrite Eq4, Eq3, Eq2. exact Hrz.
    - rewrite Eds. exact Hds2. }
  intros q6 [b2 [Eq6 Hb2]]. wok. cbn [fst snd]. split; [reflexivity|].
  assert (HK6 : KMid pt (k <| k_b := b2 |>)).
  { destruct HK4 as [[cap HK4] HS4]. split; [exists cap; exact HK4|]. destruct HS4; split; assumption. }
  assert (Ek : q_kkt q4 = k) by (rewrite Eq4; reflexivity).
  rewrite Eq6. split; cbn.
  - apply Base_stats. rewrite Ek. apply Base_KMid with (pt := pt); auto. apply Hb2.
  - destruct HP5; split; assumption.
  - rewrite Ek. exact HK6.
  - rewrite Hsg. reflexivity.
  - intros _. rewrite Ek. destruct HF4. split; assumption.
  - rewrite Eds. exact Hds2.
  - exact Hb2.
  - eapply frame_trans; [exact Hfr|]. unfold q5. rewrite Eq4, Eq3, Eq2. split; cbn; try reflexivity.
    rewrite EP, Eq3, Eq2. reflexivity.
  - rewrite Eq4, Eq3, Eq2. cbn. rewrite Ho. unfold sigF. rewrite Hsg. reflexivity.
  - rewrite Eq4, Eq3, Eq2. cbn. rewrite Hst, Hsg. exists (ap1 pt), (ad1 pt). reflexivity.
Qed.

(** What the handle keeps of a step from [pt]: matrix, factor, right-hand side of the complementarity
    rows and direction. *)
Record Stepped (pt : point) (sg : F) (q : qp F) : Prop := mkStepped {
  sp_kmid : KMid pt (q_kkt q);
  sp_fac : FacKkt A N (KF pt) Pf Qf par (q_kkt q);
  sp_ds : is_vec (q_ds q) m (dsFin pt sg);
  sp_dx : is_vec (q_delta_x q) n (dirX pt (dsFin pt sg));
  sp_dy : is_vec (q_delta_y q) p (dirY pt (dsFin pt sg));
  sp_dz : is_vec (q_delta_z q) m (dirZ pt (dsFin pt sg));
  sp_s : is_vec (q_delta_s q) m (dirS pt (dsFin pt sg))
}.

Lemma take_step_ok ps q0 q pt sg : Safe A ps -> (forall i, 0 <= i < m -> ps (ptZ pt i)) ->
  Ready q0 pt sg q ->
  wp (take_step A q) (fun q' => Base q' /\ Pt q' (nextF pt sg) /\ frame q0 q' /\
     q_options q' = (q_options q0) <| sigma := sigF pt sg |> /\
     q_stats q' = step_stats pt sg (q_stats q0) /\ Stepped pt sg q').
Proof.
  intros SF Hz [HB HP HK Hrk Hfac Hds Hb Hfr Ho [ap0 [ad0 Hst]]]. unfold take_step.
  pose proof (b_m1 _ HB) as Hm1. pose proof (b_n0 _ HB) as Hn0. pose proof (b_p0 _ HB) as Hp0.
  wb. eapply wp_mono.
  { eapply (kktsolve_2_ok ps q pt (dsFin pt sg)); eauto.
    intros E. apply Hfac. destruct (predq sg); auto. discriminate. }
  intros q2 [k [delta [dx [dy [dz [d_s [Eq2 [HK2 [HF2 [Lb [Ld [EP [Hdx [Hdy [Hdz Hd_s]]]]]]]]]]]]]]].
  assert (Em : q_m q2 = m) by (rewrite Eq2; apply (b_m _ HB)).
  assert (En : q_n q2 = n) by (rewrite Eq2; apply (b_n _ HB)).
  assert (Ep : q_p q2 = p) by (rewrite Eq2; apply (b_p _ HB)).
  rewrite Em, En, Ep.
  rewrite (findsteplength_ok A _ _ _ _ m (ptS pt) (dirS pt (dsFin pt sg)) (ptZ pt) (dirZ pt (dsFin pt sg))).
  2:{ apply (sf_neg _ _ SF). }
  2:{ rewrite Eq2. apply is_vec_vec, HP. }
  2:{ rewrite Eq2. apply is_vec_vec, Hd_s. }
  2:{ rewrite Eq2. apply is_vec_vec, HP. }
  2:{ rewrite Eq2. apply is_vec_vec, Hdz. }
  wb. wok. fold (apF pt sg). fold (adF pt sg).
  wb. eapply wp_mono.
  { eapply (updatevariables_ok A _ _ (apF pt sg) n (ptX pt) (dirX pt (dsFin pt sg))); [|lia|].
    - rewrite Eq2. apply HP.
    - rewrite Eq2. apply is_vec_vec, Hdx. }
  intros x' Hx'. wb. eapply wp_mono.
  { eapply (updatevariables_ok A _ _ (adF pt sg) p (ptY pt) (dirY pt (dsFin pt sg))); [|lia|].
    - rewrite Eq2. apply HP.
    - rewrite Eq2. apply is_vec_vec, Hdy. }
  intros y' Hy'. wb. eapply wp_mono.
  { eapply (updatevariables_ok A _ _ (apF pt sg) m (ptS pt) (dirS pt (dsFin pt sg))); [|lia|].
    - rewrite Eq2. apply HP.
    - rewrite Eq2. apply is_vec_vec, Hd_s. }
  intros s' Hs'. wb. eapply wp_mono.
  { eapply (updatevariables_ok A _ _ (adF pt sg) m (ptZ pt) (dirZ pt (dsFin pt sg))); [|lia|].
    - rewrite Eq2. apply HP.
    - rewrite Eq2. apply is_vec_vec, Hdz. }
  intros z' Hz'. wok. split; [|split; [|split; [|split; [|split]]]].
  - rewrite Eq2. destruct HB. destruct HK2 as [[cap HK2] HS2]. split; cbn; try assumption.
    + apply Hdx.
    + apply Hdy.
    + apply Hdz.
    + apply Hd_s.
    + exists cap, (updw A K0 (n + p) m (scalF A (ptS pt) (ptZ pt))). split; [exact HK2|].
      intros d q0' v. apply updw_dom. lia.
  - split; cbn; assumption.
  - eapply frame_trans; [exact Hfr|]. rewrite Eq2. split; cbn; try reflexivity. exact EP.
  - rewrite Eq2. cbn. exact Ho.
  - rewrite Eq2. cbn. rewrite Hst. reflexivity.
  - rewrite Eq2. split; cbn; assumption.
Qed.

(** ** The iteration *)

Definition interior (ps : F -> Prop) (pt : point) : Prop :=
  (forall i, 0 <= i < m -> ps (ptS pt i)) /\ (forall i, 0 <= i < m -> ps (ptZ pt i)).

Lemma interior_next ps pt sg : Safe A ps -> interior ps pt -> interior ps (nextF pt sg).
Proof.
  intros SF [Hs Hz]. split; intros i Hi; cbn.
  - apply (sf_step _ _ SF); auto.
  - apply (sf_step _ _ SF); auto.
Qed.

(** Printing uses n_ry, which only a problem with equality constraints assigns. *)
Definition printable (q : qp F) : Prop :=
  verbose (q_options q) <= 0 \/ p <> 0 \/ n_ry (q_stats q) <> None.

Lemma solve_iter_ok ps q pt : Safe A ps -> Base q -> Pt q pt -> interior ps pt -> printable q ->
  wp (solve_iter A q) (fun r =>
     let q' := fst r in
     snd r = stopF pt (q_options q) /\ Base q' /\ frame q q' /\
     if stopF pt (q_options q) then
       Pt q' pt /\ q_options q' = q_options q /\
       q_stats q' = (resid_stats pt (q_stats q)) <| Flag := QP_OPTIMAL |>
     else
       Pt q' (nextF pt (sigma (q_options q))) /\
       q_options q' = (q_options q) <| sigma := sigF pt (sigma (q_options q)) |> /\
       q_stats q' = step_stats pt (sigma (q_options q)) (q_stats q) /\
       Stepped pt (sigma (q_options q)) q').
Proof.
  intros SF HB HP [Hs Hz] Hpr. unfold solve_iter.
  pose proof (b_m1 _ HB) as Hm1. pose proof (b_n0 _ HB) as Hn0. pose proof (b_p0 _ HB) as Hp0.
  wb. eapply wp_mono; [apply (computeresiduals_ok ps q pt); auto|].
  intros q1 [rx [ry [rz [Eq1 [Hrx [Lry [Hry Hrz]]]]]]].
  wb. eapply wp_mono.
  { eapply (obj_value_ok A _ _ _ _ n (pP B) (pc B) (ptX pt)).
    - rewrite Eq1. apply (b_P _ HB).
    - rewrite Eq1. apply (b_c _ HB).
    - rewrite Eq1. apply is_vec_vec, HP.
    - rewrite Eq1. apply (b_temp _ HB). }
  intros [fv temp] [Efv Ltemp]. cbn [fst snd] in Efv, Ltemp. subst fv.
  change (objF A (pP B) (pc B) (ptX pt) n) with (fvalF pt).
  match goal with |- wp (bind (print_line A ?x) _) _ => set (q2 := x) end.
  assert (Est : q_stats q2 = resid_stats pt (q_stats q)).
  { unfold q2. rewrite Eq1. reflexivity. }
  assert (Eo : q_options q2 = q_options q) by (unfold q2; rewrite Eq1; reflexivity).
  assert (Ep : q_p q2 = p) by (unfold q2; rewrite Eq1; apply (b_p _ HB)).
  assert (HB2 : Base q2).
  { unfold q2. rewrite Eq1. base HB; [apply Hrx|apply Hrz]. }
  assert (HP2 : Pt q2 pt) by (unfold q2; rewrite Eq1; destruct HP; split; assumption).
  assert (Hfr : frame q q2) by (unfold q2; rewrite Eq1; split; reflexivity).
  wb. apply (wp_mono _ (fun _ => True)).
  { unfold print_line. rewrite Eo, Est. destruct (Z.ltb_spec 0 (verbose (q_options q))); [|exact I].
    cbn. destruct (Z.eqb_spec p 0) as [E|E]; cbn; [|exact I].
    destruct Hpr as [H1|[H1|H1]]; [lia|lia|]. destruct (n_ry (q_stats q)); [exact I|congruence]. }
  intros _ _. wb. apply (wp_mono _ (fun b => b = stopF pt (q_options q))).
  { unfold stop_test. rewrite Eo, Ep, Est.
    rewrite (sq_ok A (fofZ A 3)) by (apply (sf_tol1 _ _ SF)). wb. wok.
    rewrite (dv_ok A) by (apply (sf_tol2 _ _ SF)). wb. wok. cbn [use resid_stats n_rx n_rz n_mu n_ry]. wb. wok. wb. wok. wb. wok.
    unfold stopF. destruct (Z.eqb_spec p 0) as [E|E]; cbn [negb use].
    - wok. rewrite andb_true_r. reflexivity.
    - wb. wok. wok. reflexivity. }
  intros b ->. destruct (stopF pt (q_options q)) eqn:Estop.
  - wok. cbn [fst snd]. split; [reflexivity|]. split; [apply Base_stats; exact HB2|].
    split; [destruct Hfr; split; cbn; assumption|]. split; [destruct HP2; split; assumption|].
    split; [exact Eo|].
    change (q_stats (q2 <| q_stats := q_stats q2 <| Flag := QP_OPTIMAL |> |>)) with (q_stats q2 <| Flag := QP_OPTIMAL |>).
    rewrite Est. reflexivity.
  - assert (Em : q_m q2 = m) by (apply (b_m _ HB2)). rewrite Em.
    wb. eapply wp_mono.
    { eapply (formlambda_ok A _ _ _ m (ptS pt) (ptZ pt) (lamF pt));
        [lia|apply (b_lam _ HB2)|apply is_vec_vec, HP2|apply is_vec_vec, HP2|].
      intros i Hi. apply sq_ok. apply (sf_sqrt _ _ SF); auto. }
    intros lam Hlam. rewrite (innerproduct_ok A lam lam m (lamF pt) (lamF pt)) by (apply is_vec_vec; exact Hlam).
    wb. wok. rewrite (dv_ok A) by (apply (sf_divm _ _ SF); lia). wb. wok. fold (muF pt).
    match goal with |- context[predictor_branch A ?x] => set (q3 := x) end.
    assert (HM : Mid q pt q3).
    { unfold q3. split; cbn; auto.
      - base HB2. apply Hlam.
      - destruct HP2; split; assumption.
      - unfold q2. rewrite Eq1. exact Hrx.
      - unfold q2. rewrite Eq1. exact Hry.
      - unfold q2. rewrite Eq1. exact Hrz.
      - destruct Hfr; split; cbn; assumption. }
    change (q_sigma_d q3) with (q_sigma_d q2). change (q_options q3) with (q_options q2).
    rewrite (b_sd _ HB2), Eo. change (flt A (psd B) (sigma (q_options q))) with (predq (sigma (q_options q))).
    wb. apply (wp_mono _ (fun r => fst r = true /\ Ready q pt (sigma (q_options q)) (snd r))).
    { destruct (predq (sigma (q_options q))) eqn:Epr.
      - apply (predictor_branch_ok ps); auto.
      - wb. eapply wp_mono; [apply (centering_branch_ok ps q q3 pt (sigma (q_options q))); auto|].
        intros q4 H4. wok. auto. }
    intros [ok q4] [Eok HR]. cbn [fst snd] in *. subst ok.
    wb. eapply wp_mono; [apply (take_step_ok ps q q4 pt (sigma (q_options q))); auto|].
    intros q5 [HB5 [HP5 [Hfr5 [Ho5 [Hst5 Hsp5]]]]]. wok. cbn [fst snd]. auto 10.
Qed.

(** ** The loop *)

(** What one pass changes: the point, the options, the statistics. *)
Record snap : Type := mkSnap { sn_pt : point; sn_o : settings F; sn_st : stats F }.

Definition iterF (s : snap) : snap * bool :=
  let sg := sigma (sn_o s) in
  if stopF (sn_pt s) (sn_o s)
  then (mkSnap (sn_pt s) (sn_o s) ((resid_stats (sn_pt s) (sn_st s)) <| Flag := QP_OPTIMAL |>), true)
  else (mkSnap (nextF (sn_pt s) sg) ((sn_o s) <| sigma := sigF (sn_pt s) sg |>)
               (step_stats (sn_pt s) sg (sn_st s)), false).

Fixpoint runF (k : nat) (s : snap) : snap * bool :=
  match k with
  | O => (s, false)
  | S k => let r := runF k s in if snd r then r else iterF (fst r)
  end.

(** The end of QP_SOLVE, src/qpSWIFT.c:605-643. *)
Definition finalF (s : snap) : snap :=
  if IterationCount (sn_st s) =? maxit (sn_o s)
  then mkSnap (sn_pt s) (sn_o s) ((sn_st s) <| Flag := QP_MAXIT |>) else s.

Definition solveF (s : snap) : snap := finalF (fst (runF (Z.to_nat (maxit (sn_o s))) s)).

(** The handle holds the problem [B] and the snapshot [s]. *)
Record At (q : qp F) (s : snap) : Prop := mkAt {
  at_base : Base q;
  at_pt : Pt q (sn_pt s);
  at_o : q_options q = sn_o s;
  at_st : q_stats q = sn_st s
}.

Definition snap_of (q : qp F) (pt : point) : snap := mkSnap pt (q_options q) (q_stats q).

Definition printableS (s : snap) : Prop :=
  verbose (sn_o s) <= 0 \/ p <> 0 \/ n_ry (sn_st s) <> None.

Lemma iterF_maxit s : maxit (sn_o (fst (iterF s))) = maxit (sn_o s).
Proof. unfold iterF. destruct (stopF _ _); reflexivity. Qed.

Lemma runF_maxit k s : maxit (sn_o (fst (runF k s))) = maxit (sn_o s).
Proof.
  induction k; cbn; auto. destruct (snd (runF k s)); auto. rewrite iterF_maxit. auto.
Qed.

Lemma iterF_printable s : printableS s -> printableS (fst (iterF s)).
Proof.
  unfold printableS, iterF. destruct (stopF _ _); cbn; intros [H|[H|H]]; auto;
    right; right; destruct (p =? 0); congruence.
Qed.

Lemma iterF_interior ps s : Safe A ps -> interior ps (sn_pt s) -> interior ps (sn_pt (fst (iterF s))).
Proof.
  intros SF H. unfold iterF. destruct (stopF _ _); cbn [fst sn_pt]; auto. apply interior_next; auto.
Qed.

Lemma runF_interior ps k s : Safe A ps -> interior ps (sn_pt s) -> interior ps (sn_pt (fst (runF k s))).
Proof.
  intros SF H. induction k; cbn [runF]; auto. destruct (snd (runF k s)); auto. apply iterF_interior; auto.
Qed.

Lemma runF_printable k s : printableS s -> printableS (fst (runF k s)).
Proof.
  intros H. induction k; cbn [runF]; auto. destruct (snd (runF k s)); auto. apply iterF_printable; auto.
Qed.

Lemma solve_iter_At ps q s : Safe A ps -> At q s -> interior ps (sn_pt s) -> printableS s ->
  wp (solve_iter A q) (fun r => At (fst r) (fst (iterF s)) /\ snd r = snd (iterF s) /\ frame q (fst r) /\
     (snd r = false -> Stepped (sn_pt s) (sigma (sn_o s)) (fst r))).
Proof.
  intros SF [HB HP Ho Hst] Hi Hpr. eapply wp_mono.
  { apply (solve_iter_ok ps q (sn_pt s)); auto. unfold printable. rewrite Ho, Hst. exact Hpr. }
  intros [q' b]. cbn [fst snd]. rewrite Ho, Hst. unfold iterF. intros [Eb [HB' [Hf H]]].
  destruct (stopF (sn_pt s) (sn_o s)); [destruct H as [H1 [H2 H3]]|destruct H as [H1 [H2 [H3 H4]]]]; subst b;
    (split; [split; auto|split; [auto|split; [auto|]]]); [discriminate|auto].
Qed.

Lemma QP_SOLVE_ok ps q s : Safe A ps -> At q s -> interior ps (sn_pt s) -> printableS s ->
  Flag (sn_st s) <> QP_KKTFAIL ->
  wp (QP_SOLVE A q) (fun r => At (snd r) (solveF s) /\ fst r = Flag (sn_st (solveF s)) /\ frame q (snd r)).
Proof.
  intros SF HA Hi Hpr Hfl. unfold QP_SOLVE. rewrite (at_st _ _ HA).
  destruct (Z.eqb_spec (Flag (sn_st s)) QP_KKTFAIL); [congruence|].
  wb. rewrite (at_o _ _ HA).
  apply (wp_for (fun i st => At (fst st) (fst (runF (Z.to_nat i) s)) /\
            snd st = snd (runF (Z.to_nat i) s) /\ frame q (fst st))).
  - cbn. split; [exact HA|]. split; [reflexivity|apply frame_refl].
  - intros i [q1 b1] Hr [HA1 [Eb Hf]]. cbn [fst snd] in *.
    replace (Z.to_nat (i + 1)) with (S (Z.to_nat i)) by lia. cbn [runF]. rewrite <- Eb.
    destruct b1.
    + wok. cbn [fst snd]. auto.
    + eapply wp_mono.
      { apply (solve_iter_At ps q1 _ SF HA1); [apply runF_interior; auto|apply runF_printable; auto]. }
      intros [q2 b2] [H1 [H2 [H3 _]]]. cbn [fst snd] in *. split; auto. split; auto. eapply frame_trans; eauto.
  - intros [q1 b1] [HA1 [_ Hf]]. cbn [fst snd] in *.
    replace (Z.to_nat (Z.max 0 (maxit (sn_o s)))) with (Z.to_nat (maxit (sn_o s))) in HA1 by lia.
    wok. cbn [fst snd]. rewrite (at_st _ _ HA1), (at_o _ _ HA1). fold (solveF s).
    unfold solveF at 1 2, finalF.
    destruct (_ =? _); cbn; (split; [|split; [auto|]]); auto.
    + destruct HA1 as [HB HP Ho Hst]. split; cbn; auto.
      * apply Base_stats. auto.
      * destruct HP; split; auto.
    + destruct Hf; split; auto.
    + rewrite (at_st _ _ HA1). reflexivity.
Qed.

(** A solve limited to one pass that is not stopped by the test. *)
Lemma QP_SOLVE_one ps q s : Safe A ps -> At q s -> interior ps (sn_pt s) -> printableS s ->
  Flag (sn_st s) <> QP_KKTFAIL -> maxit (sn_o s) = 1 -> stopF (sn_pt s) (sn_o s) = false ->
  wp (QP_SOLVE A q) (fun r => Stepped (sn_pt s) (sigma (sn_o s)) (snd r)).
Proof.
  intros SF HA Hi Hpr Hfl Hm Hst. unfold QP_SOLVE. rewrite (at_st _ _ HA).
  destruct (Z.eqb_spec (Flag (sn_st s)) QP_KKTFAIL); [congruence|].
  wb. rewrite (at_o _ _ HA), Hm.
  apply (wp_for (fun i st => (i = 0 -> st = (q, false)) /\ (i = 1 -> Stepped (sn_pt s) (sigma (sn_o s)) (fst st)))).
  - split; [auto|lia].
  - intros i [q1 b1] Hr [H0 _]. change (Z.max 0 1) with 1 in Hr. assert (i = 0) by lia. subst i. specialize (H0 eq_refl). injection H0 as -> ->.
    eapply wp_mono; [apply (solve_iter_At ps q s SF HA Hi Hpr)|].
    intros [q2 b2] [_ [H2 [_ H3]]]. cbn [fst snd] in *. split; [lia|]. intros _. apply H3. rewrite H2. unfold iterF. rewrite Hst. reflexivity.
  - intros [q1 b1] [_ H1]. cbn [fst snd] in *. wok. cbn [snd]. specialize (H1 eq_refl). destruct (_ =? _); [|exact H1].
    destruct H1. split; assumption.
Qed.

End Iter.
