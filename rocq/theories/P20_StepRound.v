(** Property C60: one step of the solver in double precision. *)
From Coq Require Import ZArith Reals List Lia Lra Bool.
From RecordUpdate Require Import RecordUpdate.
From Flocq Require Import Core BinarySingleNaN.
From Verif Require Import Res Partial Arith Lists MSparse MLdl Csc SemVec TransposeProofs KktProofs LdlSpec LdlSym LdlNum LdlSolve LdlR LdlFun
  MSolver VecOps Iter SafeInst Setup Session Spec SpecLink QpSpec NewtonR PointR Round RoundLdl Api Demo P2_Kkt P3_Ldl P4_Always P5_Session P6_Codes P14_Round P19_LdlRound P21_Single RoundStep.
Import ListNotations.
Open Scope Z_scope.

(** ** Specification *)

(** The matrices the caller supplied store no row twice in a column. *)
Definition distinct_user (u : user b64) : Prop :=
  distinct_rows (u_n u) (u_Pjc u) (u_Pir u) /\ distinct_rows (u_n u) (u_Gjc u) (u_Gir u) /\
  (forall ajc air apr bb, u_eqs u = Some (ajc, air, apr, bb) -> distinct_rows (u_n u) ajc air).

(** No overflow: the factor, the direction and the new point are finite. *)
Record finite_step (u : user b64) (q' : qp b64) : Prop := mkFiniteStep {
  fs_L : finite_entries (u_N u) (k_Lp (q_kkt q')) (k_Li (q_kkt q')) (k_Lx (q_kkt q'));
  fs_D : finite_first (u_N u) (k_D (q_kkt q'));
  fs_dx : finite_first (u_n u) (q_delta_x q'); fs_dy : finite_first (u_pe u) (q_delta_y q');
  fs_dz : finite_first (u_m u) (q_delta_z q'); fs_ds : finite_first (u_m u) (q_delta_s q');
  fs_x : finite_first (u_n u) (q_x q'); fs_y : finite_first (u_pe u) (q_y q');
  fs_z : finite_first (u_m u) (q_z q'); fs_s : finite_first (u_m u) (q_s q')
}.

(** The solve from [q] to [q'] is one step: the iteration limit is 1 and the counter went up. *)
Definition one_step amd (u : user b64) l codes (q : qp b64) c (q' : qp b64) : Prop :=
  quiet_calls FA u (l ++ [Solve FA]) /\ session FA amd u l = Ok (codes, q) /\ session FA amd u (l ++ [Solve FA]) = Ok (codes ++ [c], q') /\
  maxit (q_options q) = 1 /\ IterationCount (q_stats q') = IterationCount (q_stats q) + 1.

Section Spec.
Variables (u : user b64) (q q' : qp b64).
Notation n := (u_n u).
Notation p := (u_pe u).
Notation m := (u_m u).
Notation N := (u_N u).
Notation Q := (exact_qp u).
Notation W := (size_qp u).
(** Before the step, *)
Notation x := (vec_of (q_x q)).
Notation y := (vec_of (q_y q)).
Notation z := (vec_of (q_z q)).
Notation s := (vec_of (q_s q)).
(** after it, *)
Notation x' := (vec_of (q_x q')).
Notation y' := (vec_of (q_y q')).
Notation z' := (vec_of (q_z q')).
Notation s' := (vec_of (q_s q')).
(** the direction and the right-hand side of the complementarity rows, *)
Notation dx := (vec_of (q_delta_x q')).
Notation dy := (vec_of (q_delta_y q')).
Notation dz := (vec_of (q_delta_z q')).
Notation dS := (vec_of (q_delta_s q')).
Notation rc := (vec_of (q_ds q')).
(** the step lengths, *)
Definition len_p : R := B2R (alpha_p (q_stats q')).
Definition len_d : R := B2R (alpha_d (q_stats q')).
(** the factor and the elimination order. *)
Definition fac_low : Z -> Z -> R := factor_entry (k_Lp (q_kkt q')) (k_Li (q_kkt q')) (reals (k_Lx (q_kkt q'))).
Definition fac_diag : Z -> R := get 0%R (reals (k_D (q_kkt q'))).
Definition elim : Z -> Z := get 0 (k_P (q_kkt q')).
Definition dir (a : Z) : R := if a <? n then dx a else if a <? n + p then dy (a - n) else dz (a - n - p).

Open Scope R_scope.

(** The error of the linear solve in the row eliminated as number [i] (property C59). *)
Definition solve_error (i : Z) : R :=
  IZR (3 * N + 2) * tiny (-52) * sumr (fun k => ldl_size N fac_low fac_diag i k * Rabs (dir (elim k))) (zr 0 N) +
  IZR (N + 1) * tiny (-1074) * (1 + ld_size N fac_low fac_diag i +
    sumr (fun k => (1 + ld_size N fac_low fac_diag i + ld_size N fac_low fac_diag k) * Rabs (dir (elim k))) (zr 0 N)).

(** Adding the error of the right-hand side. *)
Definition err_dual (i j : Z) : R := solve_error i + gam u * w_dual W x y z j + IZR (operations u) * tiny (-1074).
Definition err_eq (i k : Z) : R := solve_error i + gam u * w_eq W x k + IZR (operations u) * tiny (-1074).
Definition err_in (i k : Z) : R := solve_error i + 2 * (gam u * w_in W x s k)
  + tiny (-50) * (Rabs (rc k / z k) + Rabs (s k * dz k / z k)) + tiny (-1074) * (IZR (operations u) + 3 + Rabs (dz k) + / Rabs (z k)).

(** The pivots, and what the regularisation adds to the diagonal. *)
Definition regularised (E : Z -> R) : Prop := forall i, (0 <= i < N)%Z -> fac_diag i <> 0 /\
  ((E i = 0 /\ Rabs (fac_diag i) > 1 / 10 ^ 14 - / 10 ^ 28) \/
   (Rabs (fac_diag i - E i) <= 1 / 10 ^ 14 + / 10 ^ 28 /\ Rabs (Rabs (fac_diag i) - 1 / 10 ^ 7) <= / 10 ^ 21 /\ (fac_diag i - E i <= 0 <-> fac_diag i < 0))).

(** The direction solves the Newton equations up to these errors. *)
Record near_newton (E : Z -> R) : Prop := mkNearNewton {
  nn_dual : forall i j, (0 <= i < N)%Z -> (0 <= j < n)%Z -> elim i = j ->
    Rabs (Sum n (fun c => dP Q j c * dx c) + Sum p (fun k => dA Q k j * dy k) + Sum m (fun k => dG Q k j * dz k) + E i * dx j - res_dual Q x y z j) <= err_dual i j;
  nn_eq : forall i k, (0 <= i < N)%Z -> (0 <= k < p)%Z -> elim i = (n + k)%Z ->
    Rabs (Sum n (fun c => dA Q k c * dx c) + E i * dy k - res_eq Q x k) <= err_eq i k;
  nn_in : forall i k, (0 <= i < N)%Z -> (0 <= k < m)%Z -> elim i = (n + p + k)%Z ->
    Rabs (Sum n (fun c => dG Q k c * dx c) + dS k + E i * dz k - res_in Q x s k) <= err_in i k;
  nn_comp : forall k, (0 <= k < m)%Z ->
    Rabs (z k * dS k + s k * dz k - rc k) <= tiny (-51) * (Rabs (rc k) + Rabs (s k * dz k)) + tiny (-1074) * (1 + Rabs (z k))
}.

(** Rounding of v + a d. *)
Definition move_error (v d : Z -> R) (a : R) (j : Z) : R := tiny (-53) * Rabs (v j) + tiny (-51) * Rabs (a * d j) + tiny (-1074).

(** The step moves along the direction, and the residuals shrink by the factor 1 - step length up to these errors. *)
Record near_step (E : Z -> R) : Prop := mkNearStep {
  ns_x : forall j, (0 <= j < n)%Z -> Rabs (x' j - (x j + len_p * dx j)) <= move_error x dx len_p j;
  ns_s : forall j, (0 <= j < m)%Z -> Rabs (s' j - (s j + len_p * dS j)) <= move_error s dS len_p j;
  ns_y : forall j, (0 <= j < p)%Z -> Rabs (y' j - (y j + len_d * dy j)) <= move_error y dy len_d j;
  ns_z : forall j, (0 <= j < m)%Z -> Rabs (z' j - (z j + len_d * dz j)) <= move_error z dz len_d j;
  ns_eq : forall i k, (0 <= i < N)%Z -> (0 <= k < p)%Z -> elim i = (n + k)%Z ->
    Rabs (res_eq Q x' k - (1 - len_p) * res_eq Q x k) <=
      Rabs len_p * (Rabs (E i * dy k) + err_eq i k) + Sum n (fun j => Rabs (dA Q k j) * move_error x dx len_p j);
  ns_in : forall i k, (0 <= i < N)%Z -> (0 <= k < m)%Z -> elim i = (n + p + k)%Z ->
    Rabs (res_in Q x' s' k - (1 - len_p) * res_in Q x s k) <=
      Rabs len_p * (Rabs (E i * dz k) + err_in i k) + Sum n (fun j => Rabs (dG Q k j) * move_error x dx len_p j) + move_error s dS len_p k;
  ns_dual : forall i j, (0 <= i < N)%Z -> (0 <= j < n)%Z -> elim i = j ->
    Rabs (res_dual Q x' y' z' j - (1 - len_d) * res_dual Q x y z j - (len_d - len_p) * Sum n (fun c => dP Q j c * dx c)) <=
      Rabs len_d * (Rabs (E i * dx j) + err_dual i j) + Sum n (fun c => Rabs (dP Q j c) * move_error x dx len_p c)
      + Sum p (fun k => Rabs (dA Q k j) * move_error y dy len_d k) + Sum m (fun k => Rabs (dG Q k j) * move_error z dz len_d k)
}.
End Spec.

(** ** Proof *)

(** A single step of a session, in the functional model. *)
Lemma step_facts amd u l codes q c q' : valid_user amd u -> one_step amd u l codes q c q' ->
  exists q0 B r pt sg, Started FA u B q0 r /\ Base FA B q /\ Pt FA B q pt /\ Stepped FA B pt sg q' /\ Pt FA B q' (nextF FA B pt sg) /\
    alpha_p (q_stats q') = apF FA B pt sg /\ alpha_d (q_stats q') = adF FA B pt sg.
Proof.
  intros V [Hq [E1 [E2 [Hm Hk]]]]. destruct (session_from FA _ (Safe_total FA FA_total) amd u V) as [q0 [B [r [E0 [HS HF]]]]].
  assert (Hq1 : quiet_calls FA u l).
  { destruct Hq as [H|H]; [left; auto|right]. intros o Ho. apply H. apply in_or_app. auto. }
  destruct (HF l Hq1) as [qa [Ea [HA Hi]]]. rewrite E1 in Ea. injection Ea as Ec <-.
  destruct (HF _ Hq) as [qb [Eb [HA2 Hi2]]]. rewrite E2 in Eb. injection Eb as Ec2 <-.
  rewrite callsF_app in HA2. cbn [snd callsF] in HA2. set (s := snd (callsF FA B (fresh FA B r) l)) in *.
  assert (HL : loud_ok FA B s).
  { apply callsF_loud; [right; cbn; lia|]. destruct (sd_B _ _ _ _ _ HS) as [Pf [Qf [par EB]]]. rewrite EB. destruct Hq1 as [H|H]; [left; exact H|right; exact H]. }
  assert (HFl : Flag (sn_st FA s) <> QP_KKTFAIL) by (apply callsF_nofail; cbn; discriminate).
  assert (Hms : maxit (sn_o FA s) = 1) by (rewrite <- (at_o _ _ _ _ HA); exact Hm).
  assert (Es : solveF FA B s = finalF FA (fst (iterF FA B s))) by (unfold solveF; rewrite Hms; reflexivity).
  assert (Hst : stopF FA B (sn_pt FA s) (sn_o FA s) = false).
  { destruct (stopF FA B (sn_pt FA s) (sn_o FA s)) eqn:St; [|reflexivity]. exfalso.
    assert (Hk' : IterationCount (sn_st FA (solveF FA B s)) = IterationCount (sn_st FA s) + 1) by (rewrite <- (at_st _ _ _ _ HA2), <- (at_st _ _ _ _ HA); exact Hk).
    rewrite Es in Hk'. unfold iterF in Hk'. rewrite St in Hk'. unfold finalF in Hk'. cbn [fst sn_st sn_o] in Hk'.
    destruct (_ =? _) in Hk'; cbn in Hk'; lia. }
  pose proof (QP_SOLVE_one FA B _ q s (Safe_total FA FA_total) HA Hi (loud_printable _ _ _ HL) HFl Hms Hst) as HW.
  apply (proj1 (wp_exists _ _)) in HW. destruct HW as [[c2 q2] [Er HSt]]. cbn [snd] in HSt.
  rewrite (session_app FA amd u l _ _ _ E1) in E2. cbn [run_calls] in E2. rewrite Er in E2. cbn [bind] in E2. injection E2 as _ <-.
  exists q0, B, r, (sn_pt FA s), (sigma (sn_o FA s)). split; [exact HS|]. split; [apply (at_base _ _ _ _ HA)|]. split; [apply (at_pt _ _ _ _ HA)|]. split; [exact HSt|].
  pose proof (at_pt _ _ _ _ HA2) as P2. pose proof (at_st _ _ _ _ HA2) as S2. rewrite Es in P2, S2. rewrite finalF_pt in P2.
  unfold iterF in P2, S2. rewrite Hst in P2, S2. cbn [fst sn_pt] in P2. split; [exact P2|].
  unfold finalF in S2. split; [exact (eq_trans (f_equal (alpha_p (F:=b64)) S2) ltac:(destruct (_ =? _); reflexivity))|exact (eq_trans (f_equal (alpha_d (F:=b64)) S2) ltac:(destruct (_ =? _); reflexivity))].
Qed.

Lemma fin_vec (a : arr b64) k f : is_vec a k f -> finite_first k a -> forall i, 0 <= i < k -> is_finite (f i) = true.
Proof. intros [_ H] F i Hi. apply (F i (f i) Hi). apply H. exact Hi. Qed.

Section Step.
Variables (amd : amd_t) (u : user b64) (l : list (call FA)) (codes : list Z) (q : qp b64) (c : Z) (q' : qp b64).
Hypothesis V : valid_user amd u.
Hypothesis Hcov : covered u.
Hypothesis Hdis : distinct_user u.
Hypothesis Hsym : symmetric (exact_qp u).
Hypothesis HN : u_N u <= 2 ^ 50.
Hypothesis HK : operations u <= 2 ^ 51.
Hypothesis H1 : one_step amd u l codes q c q'.
Hypothesis Hfin : finite_step u q'.

Lemma step_both : exists E, regularised u q' E /\ near_newton u q q' E /\ near_step u q q' E.
Proof.
  destruct (step_facts amd u l codes q c q' V H1) as [q0 [B [r [pt [sg [HS [HB [HPt [HSt [HPt' [Eap Ead]]]]]]]]]]].
  destruct (sd_B _ _ _ _ _ HS) as [Pf [Qf [par EB]]].
  pose proof V as V'. destruct V' as [Vn Vm [nzP VP] [nzG VG] VA Vc Vh Vs Vp].
  destruct (csc_link (f0 FA) _ _ _ _ _ _ Vn VP) as [CP [RP SP]].
  destruct (csc_link (f0 FA) _ _ _ _ _ _ Vn VG) as [CG [RG SG]].
  assert (EP : get 0 (u_Pjc u) (u_n u) = nzP) by (apply get_rd, (cp_last _ _ _ _ _ (ca_pattern _ _ _ _ _ _ VP))).
  assert (EG : get 0 (u_Gjc u) (u_n u) = nzG) by (apply get_rd, (cp_last _ _ _ _ _ (ca_pattern _ _ _ _ _ _ VG))).
  pose proof (valid_pe FA amd u V) as Hpe. destruct Hdis as [DP [DG DA]].
  assert (RA' : rows_in (u_pe u) (u_n u) (u_acol FA u) /\
     start (u_acol FA u) (u_n u) = match u_eqs u with Some (ajc, _, _, _) => get 0 ajc (u_n u) | None => 0 end /\
     (forall j, 0 <= j < u_n u -> NoDup (map fst (u_acol FA u j)))).
  { change (car FA) with b64 in *. unfold u_pe, u_acol. change (car FA) with b64 in *. destruct (@u_eqs b64 u) as [[[[ajc air] apr] bb]|] eqn:Ee; 
      [|split; [intros j r' v _ []|split; [unfold start; apply sumz_zero; reflexivity|intros; constructor]]].
    destruct (VA _ _ _ _ eq_refl) as [_ [[nz Hc] _]]. destruct (csc_link (f0 FA) _ _ _ _ _ _ Vn Hc) as [_ [R1 R2]]. split; auto. split.
    - etransitivity; [exact R2|]. symmetry. apply get_rd, (cp_last _ _ _ _ _ (ca_pattern _ _ _ _ _ _ Hc)).
    - intros j Hj. apply (column_nodup (u_n u)); auto. apply (DA _ _ _ _ eq_refl). }
  destruct RA' as [RA1 [SA NA]].
  set (K := Z.to_nat (operations u)).
  assert (Ops : operations u = nzP + nzG + start (u_acol FA u) (u_n u) + u_n u + u_m u + u_pe u + 4).
  { unfold operations. change (car FA) with b64 in *. rewrite EP, EG, SA. reflexivity. }
  pose proof (start_nonneg (column (f0 FA) (u_Pjc u) (u_Pir u) (u_Ppr u)) (u_n u)) as N1. pose proof (start_nonneg (column (f0 FA) (u_Gjc u) (u_Gir u) (u_Gpr u)) (u_n u)) as N2.
  pose proof (start_nonneg (u_acol FA u) (u_n u)) as N3. change (car FA) with b64 in *.
  assert (KZ : Z.of_nat K = operations u) by (unfold K; lia).
  assert (KI : INR K = IZR (operations u)) by (rewrite INR_IZR_INZ, KZ; reflexivity).
  assert (Gm : gamma K = gam u).
  { unfold gamma, gam. rewrite INR_IZR_INZ, KZ. unfold uu. change (-52) with (1 + -53). rewrite bpow_plus. change (bpow radix2 1) with 2%R. ring. }
  assert (Hg : (gamma K <= 1 / 2)%R).
  { rewrite Gm. unfold gam. apply Rle_trans with (IZR (2 ^ 51) * bpow radix2 (-52))%R; [apply Rmult_le_compat_r; [apply bpow_ge_0|apply IZR_le; lia]|].
    change (IZR (2 ^ 51)) with (bpow radix2 51). rewrite <- bpow_plus. change (bpow radix2 (51 + -52)) with (/ 2)%R. lra. }
  assert (Bn : pn B = u_n u) by (rewrite EB; reflexivity). assert (Bm : pm B = u_m u) by (rewrite EB; reflexivity). assert (Bp : pp B = u_pe u) by (rewrite EB; reflexivity).
  assert (BN : pN B = u_N u) by (unfold pN, u_N; rewrite Bn, Bm, Bp; reflexivity).
  assert (HKK : start (pP B) (pn B) + start (pG B) (pn B) + start (pA B) (pn B) + pn B + pm B + pp B + 4 <= Z.of_nat K).
  { rewrite EB, KZ, Ops. cbn [prob_of pP pG pA pn pm pp]. change (car FA) with b64 in *. lia. }
  assert (D : 0 <= pn B /\ 1 <= pm B /\ 0 <= pp B /\ rows_in (pn B) (pn B) (pP B) /\ rows_in (pm B) (pn B) (pG B) /\ rows_in (pp B) (pn B) (pA B) /\
    (forall j, 0 <= j < pn B -> NoDup (map fst (pP B j))) /\ (forall j, 0 <= j < pn B -> NoDup (map fst (pG B j))) /\ (forall j, 0 <= j < pn B -> NoDup (map fst (pA B j))) /\
    pK B = kkt_col FA (pn B) (pp B) (pP B) (pA B) (pG B) (minus_one FA)).
  { rewrite EB. cbn [prob_of pP pG pA pn pm pp]. repeat (split; [assumption|]). split; [intros; apply (column_nodup (u_n u)); auto|].
    split; [intros; apply (column_nodup (u_n u)); auto|]. split; [exact NA|]. reflexivity. }
  destruct D as [D1 [D2 [D3 [D4 [D5 [D6 [U1 [U2 [U3 EK]]]]]]]]].
  pose proof (started_rows FA amd u B q0 r V HS Hcov) as Hrow.
  assert (QE : qp_of (mapB B2R B) = exact_qp u) by (rewrite EB; apply mapped_qp; reflexivity).
  assert (QA : qp_of (mapB absB B) = size_qp u) by (rewrite EB; apply mapped_qp; unfold absB; rewrite B2R_zero; apply Rabs_R0).
  assert (HF : forest (pN B) (ppar B) (brows (pPf B) (pQf B) (KF FA B pt))) by (exact (forest_KF FA B pt (b_forest _ _ _ HB))).
  assert (HPm : isperm (pN B) (pPf B) (pQf B)) by (apply (sd_perm _ _ _ _ _ HS)).
  destruct HSt as [Skm Sfac Sds Sdx Sdy Sdz Ss]. destruct HPt as [Px Py Pz Ps]. destruct HPt' as [Px' Py' Pz' Ps'].
  destruct Hfin as [fL fD fdx fdy fdz fds fx fy fz fs].
  destruct (factor_link (pN B) (KF FA B pt) (pPf B) (pQf B) (ppar B) (k_Lp (q_kkt q')) (k_Li (q_kkt q')) (k_Lx (q_kkt q')) (k_D (q_kkt q'))
    (fac_L FA (numF FA (pN B) (KF FA B pt) (pPf B) (pQf B) (ppar B) (pN B))) (fac_D FA (numF FA (pN B) (KF FA B pt) (pPf B) (pQf B) (ppar B) (pN B)))
    HF (fk_csc _ _ _ _ _ _ _ Sfac) (fk_D _ _ _ _ _ _ _ Sfac) ltac:(rewrite BN; exact fL) ltac:(rewrite BN; exact fD)) as [FL [FD [ED EL]]].
  set (Lv := fac_L FA (numF FA (pN B) (KF FA B pt) (pPf B) (pQf B) (ppar B) (pN B))) in *.
  set (Dv := fac_D FA (numF FA (pN B) (KF FA B pt) (pPf B) (pQf B) (ppar B) (pN B))) in *.
  set (ds := dsFin FA B pt sg) in *.
  assert (Fdx : forall i, 0 <= i < pn B -> is_finite (dirX FA B pt ds i) = true) by (intros i Hi; rewrite Bn in Hi; apply (fdx i); [exact Hi|]; apply Sdx; rewrite <- Bn in Hi; exact Hi).
  assert (Fdy : forall i, 0 <= i < pp B -> is_finite (dirY FA B pt ds i) = true) by (intros i Hi; rewrite Bp in Hi; apply (fdy i); [exact Hi|]; apply Sdy; rewrite <- Bp in Hi; exact Hi).
  assert (Fdz : forall i, 0 <= i < pm B -> is_finite (dirZ FA B pt ds i) = true) by (intros i Hi; rewrite Bm in Hi; apply (fdz i); [exact Hi|]; apply Sdz; rewrite <- Bm in Hi; exact Hi).
  assert (FdS : forall i, 0 <= i < pm B -> is_finite (dirS FA B pt ds i) = true) by (intros i Hi; rewrite Bm in Hi; apply (fds i); [exact Hi|]; apply Ss; rewrite <- Bm in Hi; exact Hi).
  assert (Fx' : forall i, 0 <= i < pn B -> is_finite (fadd FA (ptX FA pt i) (fmul FA (dirX FA B pt ds i) (apF FA B pt sg))) = true) by (intros i Hi; rewrite Bn in Hi; apply (fx i); [exact Hi|]; apply Px'; rewrite <- Bn in Hi; exact Hi).
  assert (Fy' : forall i, 0 <= i < pp B -> is_finite (fadd FA (ptY FA pt i) (fmul FA (dirY FA B pt ds i) (adF FA B pt sg))) = true) by (intros i Hi; rewrite Bp in Hi; apply (fy i); [exact Hi|]; apply Py'; rewrite <- Bp in Hi; exact Hi).
  assert (Fz' : forall i, 0 <= i < pm B -> is_finite (fadd FA (ptZ FA pt i) (fmul FA (dirZ FA B pt ds i) (adF FA B pt sg))) = true) by (intros i Hi; rewrite Bm in Hi; apply (fz i); [exact Hi|]; apply Pz'; rewrite <- Bm in Hi; exact Hi).
  assert (Fs' : forall i, 0 <= i < pm B -> is_finite (fadd FA (ptS FA pt i) (fmul FA (dirS FA B pt ds i) (apF FA B pt sg))) = true) by (intros i Hi; rewrite Bm in Hi; apply (fs i); [exact Hi|]; apply Ps'; rewrite <- Bm in Hi; exact Hi).
  assert (Fz : forall i, 0 <= i < pm B -> is_finite (ptZ FA pt i) = true) by (intros i Hi; apply (axpy_err _ _ _ (Fz' i Hi))).
  (* the arrays in the handle *)
  assert (Vx : eq_on (pn B) (vec_of (q_x q)) (fun i => B2R (ptX FA pt i))) by (apply vec_pt; exact Px).
  assert (Vy : eq_on (pp B) (vec_of (q_y q)) (fun i => B2R (ptY FA pt i))) by (apply vec_pt; exact Py).
  assert (Vz : eq_on (pm B) (vec_of (q_z q)) (fun i => B2R (ptZ FA pt i))) by (apply vec_pt; exact Pz).
  assert (Vs' : eq_on (pm B) (vec_of (q_s q)) (fun i => B2R (ptS FA pt i))) by (apply vec_pt; exact Ps).
  assert (Wx : eq_on (pn B) (vec_of (q_x q')) (fun i => B2R (fadd FA (ptX FA pt i) (fmul FA (dirX FA B pt ds i) (apF FA B pt sg))))) by (apply vec_pt; exact Px').
  assert (Wy : eq_on (pp B) (vec_of (q_y q')) (fun i => B2R (fadd FA (ptY FA pt i) (fmul FA (dirY FA B pt ds i) (adF FA B pt sg))))) by (apply vec_pt; exact Py').
  assert (Wz : eq_on (pm B) (vec_of (q_z q')) (fun i => B2R (fadd FA (ptZ FA pt i) (fmul FA (dirZ FA B pt ds i) (adF FA B pt sg))))) by (apply vec_pt; exact Pz').
  assert (Ws : eq_on (pm B) (vec_of (q_s q')) (fun i => B2R (fadd FA (ptS FA pt i) (fmul FA (dirS FA B pt ds i) (apF FA B pt sg))))) by (apply vec_pt; exact Ps').
  assert (Ddx : eq_on (pn B) (vec_of (q_delta_x q')) (fun i => B2R (dirX FA B pt ds i))) by (apply vec_pt; exact Sdx).
  assert (Ddy : eq_on (pp B) (vec_of (q_delta_y q')) (fun i => B2R (dirY FA B pt ds i))) by (apply vec_pt; exact Sdy).
  assert (Ddz : eq_on (pm B) (vec_of (q_delta_z q')) (fun i => B2R (dirZ FA B pt ds i))) by (apply vec_pt; exact Sdz).
  assert (DdS : eq_on (pm B) (vec_of (q_delta_s q')) (fun i => B2R (dirS FA B pt ds i))) by (apply vec_pt; exact Ss).
  assert (Drc : eq_on (pm B) (vec_of (q_ds q')) (fun i => B2R (ds i))) by (apply vec_pt; exact Sds).
  assert (HO : forall i, 0 <= i < pN B -> elim q' i = pPf B i) by (intros i Hi; unfold elim; apply get_rd; apply (sk_P _ _ _ _ _ _ _ (km_sym _ _ _ _ Skm)); exact Hi).
  assert (HNB : pN B <= 2 ^ 50) by (rewrite BN; exact HN).
  (* the direction, by block *)
  assert (HD : forall a, 0 <= a < pN B -> dir u q' a = B2R (dirU FA B pt ds a)).
  { intros a Ha. unfold dir. rewrite <- Bn, <- Bp. unfold pN in Ha. destruct (Z.ltb_spec a (pn B)).
    - rewrite Ddx by lia. rewrite dirX_U. reflexivity.
    - destruct (Z.ltb_spec a (pn B + pp B)).
      + rewrite Ddy by lia. unfold dirY. change (@pn (car FA) B) with (@pn b64 B). f_equal. f_equal. lia.
      + rewrite Ddz by lia. unfold dirZ. change (@pn (car FA) B) with (@pn b64 B). change (@pp (car FA) B) with (@pp b64 B). f_equal. f_equal. lia. }
  (* the error of the linear solve *)
  assert (HSe : forall i, 0 <= i < pN B -> Se B pt ds (pPf B i) = solve_error u q' i).
  { intros i Hi. unfold Se, serr, solve_error. rewrite (qf_pf _ _ _ HPm i Hi), <- BN. 
    assert (E1 : forall k, 0 <= k < pN B -> ld_size (pN B) (fac_low q') (fac_diag q') k = RF (pN B) (KF FA B pt) (pPf B) (pQf B) (ppar B) Lv Dv k).
    { intros k Hk. apply sumr_ext. intros j Hj. apply in_zr in Hj. unfold fac_low, fac_diag. rewrite (EL k j), ED by lia. reflexivity. }
    assert (E2 : forall k, 0 <= k < pN B -> ldl_size (pN B) (fac_low q') (fac_diag q') i k = WF (pN B) (KF FA B pt) (pPf B) (pQf B) (ppar B) Lv Dv i k).
    { intros k Hk. apply sumr_ext. intros j Hj. apply in_zr in Hj. unfold fac_low, fac_diag. rewrite (EL k j), (EL i j), ED by lia. reflexivity. }
    assert (E3 : forall k, 0 <= k < pN B -> dir u q' (elim q' k) = B2R (ws (pN B) (KF FA B pt) (pPf B) (pQf B) (ppar B) Lv Dv (fun k => rhsF FA B pt ds (pPf B k)) k)).
    { intros k Hk. rewrite HO, HD by (try apply (pf_range _ _ _ HPm); exact Hk). rewrite dirU_ws, (qf_pf _ _ _ HPm k Hk). reflexivity. }
    rewrite (E1 i Hi). f_equal; f_equal; [|f_equal]; apply sumr_ext; intros k Hk; apply in_zr in Hk; rewrite (E3 k Hk), ?(E2 k Hk), ?(E1 k Hk); reflexivity. }
  pose proof (numF_spec FA (pN B) (KF FA B pt) (pPf B) (pQf B) (ppar B) HF div_ok_F) as HNum.
  set (E := EF (pN B) (KF FA B pt) (pPf B) (pQf B) (ppar B) (fac_y FA (numF FA (pN B) (KF FA B pt) (pPf B) (pQf B) (ppar B) (pN B))) Lv Dv).
  assert (HE : forall i, 0 <= i < pN B -> Ed B pt (pPf B i) = E i) by (intros i Hi; unfold Ed; rewrite (qf_pf _ _ _ HPm i Hi); reflexivity).
  assert (HsB : symmetric (qp_of (mapB B2R B))) by (rewrite QE; exact Hsym).
  assert (NN : near_newton u q q' E).
  { split.
    - intros i j Hi Hj Eo. assert (HiB : 0 <= i < pN B) by (rewrite BN; exact Hi). assert (HjB : 0 <= j < pn B) by (rewrite Bn; exact Hj).
      rewrite HO in Eo by exact HiB. unfold err_dual. rewrite <- HSe, <- HE, Eo, <- QE, <- QA, <- Gm, <- KZ, <- Bn, <- Bp, <- Bm by exact HiB.
      rewrite (Sum_ext (pn B) _ (fun c => dP (qp_of (mapB B2R B)) j c * B2R (dirX FA B pt ds c))%R) by (intros k Hk; rewrite Ddx by exact Hk; reflexivity).
      rewrite (Sum_ext (pp B) _ (fun c => dA (qp_of (mapB B2R B)) c j * B2R (dirY FA B pt ds c))%R) by (intros k Hk; rewrite Ddy by exact Hk; reflexivity).
      rewrite (Sum_ext (pm B) _ (fun c => dG (qp_of (mapB B2R B)) c j * B2R (dirZ FA B pt ds c))%R) by (intros k Hk; rewrite Ddz by exact Hk; reflexivity).
      rewrite (Ddx j HjB), (res_dual_ext (qp_of (mapB B2R B)) _ _ _ _ _ _ Vx Vy Vz j), (w_dual_ext (qp_of (mapB absB B)) _ _ _ _ _ _ j Vx Vy Vz).
      apply dir_dual; assumption.
    - intros i k Hi Hk Eo. assert (HiB : 0 <= i < pN B) by (rewrite BN; exact Hi). assert (HkB : 0 <= k < pp B) by (rewrite Bp; exact Hk).
      rewrite HO in Eo by exact HiB. unfold err_eq. rewrite <- HSe, <- HE, Eo, <- QE, <- QA, <- Gm, <- KZ, <- Bn by exact HiB.
      rewrite (Sum_ext (pn B) _ (fun c => dA (qp_of (mapB B2R B)) k c * B2R (dirX FA B pt ds c))%R) by (intros k' Hk'; rewrite Ddx by exact Hk'; reflexivity).
      rewrite (Ddy k HkB), (res_eq_ext (qp_of (mapB B2R B)) _ _ Vx k), (w_eq_ext (qp_of (mapB absB B)) _ _ k Vx).
      apply dir_eq; assumption.
    - intros i k Hi Hk Eo. assert (HiB : 0 <= i < pN B) by (rewrite BN; exact Hi). assert (HkB : 0 <= k < pm B) by (rewrite Bm; exact Hk).
      rewrite HO in Eo by exact HiB. unfold err_in. rewrite <- HSe, <- HE, Eo, <- QE, <- QA, <- Gm, <- KI, <- Bn, <- Bp by exact HiB.
      rewrite (Sum_ext (pn B) _ (fun c => dG (qp_of (mapB B2R B)) k c * B2R (dirX FA B pt ds c))%R) by (intros k' Hk'; rewrite Ddx by exact Hk'; reflexivity).
      rewrite (Ddz k HkB), (DdS k HkB), (Drc k HkB), (res_in_ext (qp_of (mapB B2R B)) _ _ _ _ Vx Vs' k HkB), (w_in_ext (qp_of (mapB absB B)) _ _ _ _ k Vx Vs' HkB), (Vz k HkB), (Vs' k HkB).
      apply dir_in; assumption.
    - intros k Hk. assert (HkB : 0 <= k < pm B) by (rewrite Bm; exact Hk).
      rewrite (Ddz k HkB), (DdS k HkB), (Drc k HkB), (Vz k HkB), (Vs' k HkB). apply (dir_comp B pt); assumption. }
  exists E. split; [|split; [exact NN|]].
  - intros i Hi. assert (HiB : 0 <= i < pN B) by (rewrite BN; exact Hi). unfold fac_diag. rewrite ED by exact HiB.
    apply (E_facts (pN B) (KF FA B pt) (pPf B) (pQf B) (ppar B) _ Lv Dv HNum FD i HiB).
  - assert (Ea1 : len_p q' = B2R (apF FA B pt sg)) by (unfold len_p; rewrite <- Eap; reflexivity).
    assert (Ea2 : len_d q' = B2R (adF FA B pt sg)) by (unfold len_d; rewrite <- Ead; reflexivity).
    assert (Mx : forall j, 0 <= j < u_n u -> (Rabs (vec_of (q_x q') j - (vec_of (q_x q) j + len_p q' * vec_of (q_delta_x q') j)) <= move_error (vec_of (q_x q)) (vec_of (q_delta_x q')) (len_p q') j)%R).
    { intros j Hj. rewrite <- Bn in Hj. unfold move_error. rewrite Ea1, (Wx j Hj), (Vx j Hj), (Ddx j Hj). apply axpy_err. auto. }
    assert (Ms : forall j, 0 <= j < u_m u -> (Rabs (vec_of (q_s q') j - (vec_of (q_s q) j + len_p q' * vec_of (q_delta_s q') j)) <= move_error (vec_of (q_s q)) (vec_of (q_delta_s q')) (len_p q') j)%R).
    { intros j Hj. rewrite <- Bm in Hj. unfold move_error. rewrite Ea1, (Ws j Hj), (Vs' j Hj), (DdS j Hj). apply axpy_err. auto. }
    assert (My : forall j, 0 <= j < u_pe u -> (Rabs (vec_of (q_y q') j - (vec_of (q_y q) j + len_d q' * vec_of (q_delta_y q') j)) <= move_error (vec_of (q_y q)) (vec_of (q_delta_y q')) (len_d q') j)%R).
    { intros j Hj. rewrite <- Bp in Hj. unfold move_error. rewrite Ea2, (Wy j Hj), (Vy j Hj), (Ddy j Hj). apply axpy_err. auto. }
    assert (Mz : forall j, 0 <= j < u_m u -> (Rabs (vec_of (q_z q') j - (vec_of (q_z q) j + len_d q' * vec_of (q_delta_z q') j)) <= move_error (vec_of (q_z q)) (vec_of (q_delta_z q')) (len_d q') j)%R).
    { intros j Hj. rewrite <- Bm in Hj. unfold move_error. rewrite Ea2, (Wz j Hj), (Vz j Hj), (Ddz j Hj). apply axpy_err. auto. }
    destruct (exact_dims u) as [X1 [X2 X3]]. split; auto.
    + intros i k Hi Hk Eo. pose proof (nn_eq _ _ _ _ NN i k Hi Hk Eo) as X. rewrite <- X1 in X, Mx |- *. apply moved_res_eq with (dx := vec_of (q_delta_x q')); assumption.
    + intros i k Hi Hk Eo. pose proof (nn_in _ _ _ _ NN i k Hi Hk Eo) as X. specialize (Ms k Hk). rewrite <- X1 in X, Mx |- *. eapply moved_res_in; eassumption.
    + intros i j Hi Hj Eo. pose proof (nn_dual _ _ _ _ NN i j Hi Hj Eo) as X. rewrite <- X1 in X, Mx |- *. rewrite <- X2 in X, Mz |- *. rewrite <- X3 in X, My |- *. eapply moved_res_dual; eassumption.
Qed.
End Step.

(** ** C60 *)

(** One step in double precision.  The direction solves the Newton equations of the caller's problem with the
    diagonal E of the regularisation added, up to rounding; the point moves along it; and every primal
    and dual residual is multiplied by 1 - step length, up to rounding and the regularisation. *)
Theorem C60_step amd u l codes q c q' : valid_user amd u -> covered u -> distinct_user u -> symmetric (exact_qp u) ->
  u_N u <= 2 ^ 50 -> operations u <= 2 ^ 51 -> one_step amd u l codes q c q' -> finite_step u q' ->
  exists E, regularised u q' E /\ near_newton u q q' E /\ near_step u q q' E.
Proof. intros V C D S HN HK H F. exact (step_both amd u l codes q c q' V C D S HN HK H F). Qed.

(** When no pivot was replaced, there is no such diagonal. *)
Theorem C60_unregularised amd u l codes q c q' : valid_user amd u -> covered u -> distinct_user u -> symmetric (exact_qp u) ->
  u_N u <= 2 ^ 50 -> operations u <= 2 ^ 51 -> one_step amd u l codes q c q' -> finite_step u q' ->
  (forall i, 0 <= i < u_N u -> (Rabs (Rabs (fac_diag q' i) - 1 / 10 ^ 7) > / 10 ^ 21)%R) ->
  near_newton u q q' (fun _ => 0%R) /\ near_step u q q' (fun _ => 0%R).
Proof.
  intros V C D S HN HK H F HD. destruct (step_both amd u l codes q c q' V C D S HN HK H F) as [E [HE [[A1 A2 A3 A4] [B1 B2 B3 B4 B5 B6 B7]]]].
  assert (E0 : forall i, 0 <= i < u_N u -> E i = 0%R).
  { intros i Hi. destruct (HE i Hi) as [_ [[E1 _]|[_ [E2 _]]]]; [exact E1|]. specialize (HD i Hi). lra. }
  split; split; auto; intros i k Hi Hk Eo; rewrite <- (E0 i Hi); auto.
Qed.

(** Every iteration of a longer solve is such a step (property C61): [q1] and [q2] are the states after i and i + 1 iterations. *)
Theorem C60_every_iteration amd u l codes q i q1 q2 : valid_user amd u -> covered u -> distinct_user u -> symmetric (exact_qp u) ->
  u_N u <= 2 ^ 50 -> operations u <= 2 ^ 51 -> quiet_calls FA u l -> session FA amd u l = Ok (codes, q) ->
  singly FA i q = Ok q1 -> singly FA (S i) q = Ok q2 -> IterationCount (q_stats q2) = IterationCount (q_stats q1) + 1 -> finite_step u q2 ->
  exists E, regularised u q2 E /\ near_newton u q1 q2 E /\ near_step u q1 q2 E.
Proof.
  intros V C D S HN HK Hq E E1 E2 Hc F. destruct (C61_loop FA _ amd u l codes q (Safe_total FA FA_total) V Hq E i) as [q1' [os [cs [X1 [_ [_ [X2 [X3 X4]]]]]]]].
  rewrite E1 in X1. injection X1 as <-. set (o := (q_options q1) <| maxit := 1 |>).
  assert (E3 : exists c, QP_SOLVE FA (q1 <| q_options := o |>) = Ok (c, q2)).
  { assert (G : forall k q q1, singly FA k q = Ok q1 -> singly FA (Datatypes.S k) q = ('(_, q) <- QP_SOLVE FA (q1 <| q_options := (q_options q1) <| maxit := 1 |> |>) ;; Ok q)%res).
    { induction k; intros qa qb; cbn [singly]; [intros X; injection X as <-; reflexivity|].
      destruct (QP_SOLVE FA _) as [[c qc]| |]; cbn [bind]; try discriminate. intros X. specialize (IHk _ _ X). cbn [singly] in IHk. exact IHk. }
    rewrite (G _ _ _ E1) in E2. fold o in E2. change (car FA) with b64 in *. destruct (QP_SOLVE FA _) as [[c qc]| |]; cbn [bind] in E2; try discriminate. injection E2 as ->. eauto. }
  destruct E3 as [c E3].
  assert (H1 : one_step amd u (l ++ singles FA os ++ [SetOptions FA o]) (codes ++ cs) (q1 <| q_options := o |>) c q2).
  { split; [|split; [|split; [|split; [reflexivity|exact Hc]]]].
    - destruct X2 as [X2|X2]; [left; exact X2|]. destruct X4 as [X4|X4]; [left; exact X4|]. right. intros o' Ho. rewrite !app_assoc, in_app_iff, in_app_iff in Ho.
      destruct Ho as [[Ho|[Ho|[]]]|[Ho|[]]]; [auto|injection Ho as <-; exact X4|discriminate Ho].
    - rewrite app_assoc, (session_app FA amd u _ _ _ _ X3). cbn [run_calls bind]. rewrite app_nil_r. reflexivity.
    - replace ((l ++ singles FA os ++ [SetOptions FA o]) ++ [Solve FA]) with ((l ++ singles FA os) ++ ([SetOptions FA o] ++ [Solve FA])) by (rewrite <- !app_assoc; reflexivity).
      rewrite (session_app FA amd u _ _ _ _ X3). cbn [app run_calls]. rewrite E3. reflexivity. }
  destruct (step_both amd u _ _ _ c q2 V C D S HN HK H1 F) as [Ev [HE [[A1 A2 A3 A4] [B1 B2 B3 B4 B5 B6 B7]]]].
  exists Ev. split; [exact HE|]. split; split; assumption.
Qed.

(** ** Case: minimise x^2/2 subject to x >= 1, one iteration. *)
Definition opt60 : settings (car FA) := (default_settings FA) <| maxit := 1 |>.

Definition big_b (x : b64) : bool := flt FA (fdec FA 1 1000) x || flt FA x (fopp FA (fdec FA 1 1000)).

Notation run60 := (session FA noamd (small FA) ([SetOptions FA opt60] ++ [Solve FA])).
Notation before60 := (session FA noamd (small FA) [SetOptions FA opt60]).

(** What is computed. *)
Definition check60 (r1 r2 : res (list Z * qp b64)) : bool := match r1, r2 with
  | Ok ([], q), Ok ([c], q') => (maxit (q_options q) =? 1) && (IterationCount (q_stats q') =? IterationCount (q_stats q) + 1) &&
      finb (k_Lx (q_kkt q')) && finb (k_D (q_kkt q')) && finb (q_delta_x q') && finb (q_delta_y q') && finb (q_delta_z q') && finb (q_delta_s q') &&
      finb (q_x q') && finb (q_y q') && finb (q_z q') && finb (q_s q') &&
      match rd (k_D (q_kkt q')) 0, rd (k_D (q_kkt q')) 1 with Ok a, Ok b => big_b a && big_b b | _, _ => false end
  | _, _ => false end.

Lemma run60_ok : check60 before60 run60 = true.
Proof. vm_compute. reflexivity. Qed.

Lemma milli_fin : is_finite (fdec FA 1 1000 : b64) = true.
Proof. vm_compute. reflexivity. Qed.

Lemma milli : (1 / 2000 <= B2R (fdec FA 1 1000 : b64))%R.
Proof. pose proof (dec_val 1000 ltac:(lia) milli_fin) as H. pose proof uu_le. pose proof eta_le. apply Rabs_le_inv in H. set (v := B2R _) in H. change (1 / 2000 <= v)%R. lra. Qed.

Lemma big_b_ok x : big_b x = true -> is_finite x = true -> (Rabs (Rabs (B2R x) - 1 / 10 ^ 7) > / 10 ^ 21)%R.
Proof.
  intros H Fx. pose proof milli as M. assert (Hx : (1 / 2000 < Rabs (B2R x))%R).
  { apply orb_prop in H. destruct H as [H|H].
    - destruct (flt_finite _ _ H Fx) as [_ G]; [intros E; pose proof milli_fin as X; rewrite E in X; discriminate X|]. eapply Rlt_le_trans; [|apply Rle_abs]. lra.
    - destruct (flt_finite _ _ H) as [_ G]; [vm_compute; reflexivity|intros E; rewrite E in Fx; discriminate Fx|].
      assert (Eo : B2R (fopp FA (fdec FA 1 1000)) = (- B2R (fdec FA 1 1000 : b64))%R) by (cbn [fopp FA]; apply B2R_Bopp). rewrite Eo in G.
      rewrite <- Rabs_Ropp. eapply Rlt_le_trans; [|apply Rle_abs]. lra. }
  assert (C7 : (10 ^ 7 = 10000000)%R) by ring. assert (C21 : (10 ^ 21 = 1000000000000000000000)%R) by ring. rewrite C7, C21.
  rewrite Rabs_pos_eq; lra.
Qed.

Lemma check60_ok r1 r2 : check60 r1 r2 = true -> exists q c q', r1 = Ok ([], q) /\ r2 = Ok ([c], q') /\ maxit (q_options q) = 1 /\
  IterationCount (q_stats q') = IterationCount (q_stats q) + 1 /\ finite_step (small FA) q' /\
  (forall i, 0 <= i < 2 -> (Rabs (Rabs (fac_diag q' i) - 1 / 10 ^ 7) > / 10 ^ 21)%R).
Proof.
  destruct r1 as [[[|a l] q]| |]; try (intros H; discriminate H). destruct r2 as [[[|c [|c2 l2]] q']| |]; try (intros H; discriminate H).
  unfold check60. intros H. repeat (apply andb_prop in H; destruct H as [H ?]). 
  destruct (rd (k_D (q_kkt q')) 0) as [d0| |] eqn:R0; try discriminate. destruct (rd (k_D (q_kkt q')) 1) as [d1| |] eqn:R1; try discriminate.
  match goal with X : big_b d0 && big_b d1 = true |- _ => apply andb_prop in X; destruct X as [G0 G1] end.
  assert (FD : finb (k_D (q_kkt q')) = true) by assumption.
  exists q, c, q'. split; [reflexivity|]. split; [reflexivity|]. split; [apply Z.eqb_eq; assumption|]. split; [apply Z.eqb_eq; assumption|]. split.
  - split; try (intros i v _ X; eapply finb_rd; [|exact X]; assumption). intros i j v _ [a [b [k [_ [_ [_ [_ X]]]]]]]. eapply finb_rd; [|exact X]. assumption.
  - intros i Hi. unfold fac_diag. rewrite get_reals. unfold get. pose proof (finb_rd _ _ _ FD R0) as F0. pose proof (finb_rd _ _ _ FD R1) as F1.
    enum i; cbn [car FA]; [rewrite R0|rewrite R1]; apply big_b_ok; assumption.
Qed.

Theorem C60_case : exists q c q', valid_user noamd (small FA) /\ covered (small FA) /\ distinct_user (small FA) /\ symmetric (exact_qp (small FA)) /\
  u_N (small FA) <= 2 ^ 50 /\ operations (small FA) <= 2 ^ 51 /\ one_step noamd (small FA) [SetOptions FA opt60] [] q c q' /\ finite_step (small FA) q' /\
  (forall i, 0 <= i < u_N (small FA) -> (Rabs (Rabs (fac_diag q' i) - 1 / 10 ^ 7) > / 10 ^ 21)%R).
Proof.
  destruct (check60_ok _ _ run60_ok) as [q [c [q' [E1 [E2 [Hm [Hk [Hf Hd]]]]]]]].
  exists q, c, q'. split; [apply small_valid|]. split; [apply small_covered|]. split; [|split; [|split; [|split; [|split; [|split]]]]].
  - split; [|split; [|intros ajc air apr bb X; discriminate X]]; intros j k1 k2 Hj A1 A2 A3; change (u_n (small FA)) with 1 in Hj; enum j;
    match type of A1 with ?a <= _ => change a with 0 in A1 end; match type of A3 with _ < ?a => change a with 1 in A3 end; lia.
  - intros i j Hi Hj. change (dn (exact_qp (small FA))) with 1 in *. enum i; enum j. reflexivity.
  - vm_compute. discriminate.
  - vm_compute. discriminate.
  - split; [right; intros o [X|[X|[]]]; [injection X as <-; cbn; lia|discriminate X]|]. split; [exact E1|]. split; [exact E2|]. split; assumption.
  - exact Hf.
  - exact Hd.
Qed.

Print Assumptions C60_step.
Print Assumptions C60_every_iteration.
Print Assumptions C60_unregularised.
Print Assumptions C60_case.
