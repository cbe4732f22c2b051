(** A use of the library as a caller sees it: the arguments of QP_SETUP, when they are valid, and a
    session (setup, then option changes and solves).  The main lemma says what a session computes. *)
From Coq Require Import ZArith Reals List Lia Lra Bool.
From RecordUpdate Require Import RecordUpdate.
From Verif Require Import Res Arith Lists MSparse Csc SemVec Flat TransposeProofs KktProofs MLdl LdlSpec LdlSym LdlNum LdlR
  LdlFun MSolver VecOps Iter SafeInst Setup Session Spec SpecLink QpSpec NewtonR.
Import ListNotations.
Open Scope Z_scope.
Open Scope res_scope.

(** The arguments of QP_SETUP (src/qpSWIFT.c:60); pointers that may be NULL are options. *)
Record user (F : Type) : Type := mkUser {
  u_n : Z; u_m : Z; u_p : Z;
  u_Pjc : arr Z; u_Pir : arr Z; u_Ppr : arr F;
  u_Ajc : option (arr Z); u_Air : option (arr Z); u_Apr : option (arr F);
  u_Gjc : arr Z; u_Gir : arr Z; u_Gpr : arr F;
  u_c : arr F; u_h : arr F; u_b : option (arr F);
  u_sigma_d : F;
  u_perm : option (arr Z)
}.
Arguments mkUser {F}.
Arguments u_n {F}. Arguments u_m {F}. Arguments u_p {F}.
Arguments u_Pjc {F}. Arguments u_Pir {F}. Arguments u_Ppr {F}.
Arguments u_Ajc {F}. Arguments u_Air {F}. Arguments u_Apr {F}.
Arguments u_Gjc {F}. Arguments u_Gir {F}. Arguments u_Gpr {F}.
Arguments u_c {F}. Arguments u_h {F}. Arguments u_b {F}. Arguments u_sigma_d {F}. Arguments u_perm {F}.

#[export] Instance eta_user {F} : Settable (user F) :=
  settable! (@mkUser F) <u_n; u_m; u_p; u_Pjc; u_Pir; u_Ppr; u_Ajc; u_Air; u_Apr; u_Gjc; u_Gir; u_Gpr;
    u_c; u_h; u_b; u_sigma_d; u_perm>.

Section User.
Context {F : Type}.

(** The equality constraints, if any: all four pointers present and p nonzero. *)
Definition u_eqs (u : user F) : option (arr Z * arr Z * arr F * arr F) :=
  match u_Apr u, u_Ajc u, u_Air u, u_b u with
  | Some apr, Some ajc, Some air, Some bb => if u_p u =? 0 then None else Some (ajc, air, apr, bb)
  | _, _, _, _ => None
  end.

(** Number of equality constraints of the problem, size of the KKT system. *)
Definition u_pe (u : user F) : Z := match u_eqs u with Some _ => u_p u | None => 0 end.
Definition u_N (u : user F) : Z := u_n u + u_pe u + u_m u.

(** Bound on the number of entries of the KKT matrix: those of P, twice those of G and A, and the block -I. *)
Definition u_cap (u : user F) : Z :=
  get 0 (u_Pjc u) (u_n u) + 2 * get 0 (u_Gjc u) (u_n u) + u_m u +
  match u_eqs u with Some (ajc, _, _, _) => 2 * get 0 ajc (u_n u) | None => 0 end.

(** What the ordering package is required to do on a valid pattern with at most [cap] entries; [fits] is the side
    condition for the fallback that runs when it fails.  (AMD_order fulfils this, see P12_Order.v.) *)
Definition ordering_ok (amd : amd_t) (N cap : Z) (fits : Prop) : Prop :=
  forall Jc Ir nz P, csc_pattern N N Jc Ir nz -> nz <= cap -> zlen P = N ->
    exists st P', amd N Jc Ir P = Ok (st, P') /\ zlen P' = N /\
      (0 <= st -> permutation_array P' N) /\ (st < 0 -> fits).

(** Arguments that satisfy the documented requirements.  (An additional, undocumented one: P, A and G
    must not all be empty.) *)
Record valid_user (amd : amd_t) (u : user F) : Prop := mkValidUser {
  vu_n : 0 <= u_n u;
  vu_m : 1 <= u_m u;
  vu_P : exists nz, csc_arrays (u_n u) (u_n u) (u_Pjc u) (u_Pir u) (u_Ppr u) nz;
  vu_G : exists nz, csc_arrays (u_m u) (u_n u) (u_Gjc u) (u_Gir u) (u_Gpr u) nz;
  vu_A : forall ajc air apr bb, u_eqs u = Some (ajc, air, apr, bb) ->
           0 <= u_p u /\ (exists nz, csc_arrays (u_p u) (u_n u) ajc air apr nz) /\ filled bb (u_p u);
  vu_c : filled (u_c u) (u_n u);
  vu_h : filled (u_h u) (u_m u);
  vu_some : exists i j v, 0 <= j < u_n u /\
              (stored (u_Pjc u) (u_Pir u) (u_Ppr u) i j v \/ stored (u_Gjc u) (u_Gir u) (u_Gpr u) i j v \/
               exists ajc air apr bb, u_eqs u = Some (ajc, air, apr, bb) /\ stored ajc air apr i j v);
  vu_perm : match u_perm u with
            | Some P => permutation_array P (u_N u)
            | None => ordering_ok amd (u_N u) (u_cap u) (u_p u = u_pe u)
            end
}.

(** Every inequality has a stored coefficient. *)
Definition covered (u : user F) : Prop :=
  forall i, 0 <= i < u_m u -> exists j v, 0 <= j < u_n u /\ stored (u_Gjc u) (u_Gir u) (u_Gpr u) i j v.

End User.

Section Api.
Variable A : Arith.
Notation F := (car A).
Notation zero := (f0 A).

Definition setup (amd : amd_t) (u : user F) : res (qp F) :=
  QP_SETUP A amd (u_n u) (u_m u) (u_p u) (u_Pjc u) (u_Pir u) (u_Ppr u) (u_Ajc u) (u_Air u) (u_Apr u)
    (u_Gjc u) (u_Gir u) (u_Gpr u) (u_c u) (u_h u) (u_b u) (u_sigma_d u) (u_perm u).

(** Setup, then the calls: exit codes of the solves and the final handle. *)
Definition session (amd : amd_t) (u : user F) (l : list (call A)) : res (list Z * qp F) :=
  q <- setup amd u ;; run_calls A q l.

(** Progress output is only requested when there are equality constraints. *)
Definition quiet_calls (u : user F) (l : list (call A)) : Prop :=
  u_pe u <> 0 \/ forall o, In (SetOptions A o) l -> verbose o <= 0.

Definition u_acol (u : user F) : cols F :=
  match u_eqs u with Some (ajc, air, apr, _) => column zero ajc air apr | None => fun _ => [] end.
Definition u_bv (u : user F) : Z -> F :=
  match u_eqs u with Some (_, _, _, bb) => get zero bb | None => fun _ => zero end.

Definition prob_of (u : user F) (Pf Qf par : Z -> Z) : prob F :=
  mkProb A (u_n u) (u_m u) (u_pe u) (column zero (u_Pjc u) (u_Pir u) (u_Ppr u)) (u_acol u)
    (column zero (u_Gjc u) (u_Gir u) (u_Gpr u)) (get zero (u_c u)) (u_bv u) (get zero (u_h u)) (u_sigma_d u) Pf Qf par.

(** State right after setup. *)
Definition fresh (B : prob F) (r : Z) : snap A :=
  mkSnap A (initF A B) (default_settings A) ((initial_stats A) <| AMD_RESULT := r |>).

Record Started (u : user F) (B : prob F) (q : qp F) (r : Z) : Prop := mkStarted {
  sd_B : exists Pf Qf par, B = prob_of u Pf Qf par;
  sd_perm : isperm (pN B) (pPf B) (pQf B);
  sd_kP : vec (k_P (q_kkt q)) (pN B) (pPf B);
  sd_at : At A B q (fresh B r);
  sd_K : KktRep (k_mat (q_kkt q)) (pN B) (start (pP B) (pn B) + 2 * start (pG B) (pn B) + pm B + 2 * start (pA B) (pn B)) (K0 A B);
  sd_P : q_P q = mkSmat (u_Pjc u) (u_Pir u) (u_Ppr u) (u_n u) (u_n u) (get 0 (u_Pjc u) (u_n u));
  sd_G : q_G q = mkSmat (u_Gjc u) (u_Gir u) (u_Gpr u) (u_n u) (u_m u) (get 0 (u_Gjc u) (u_n u));
  sd_c : q_c q = u_c u; sd_h : q_h q = u_h u;
  sd_A : match u_eqs u with
         | Some (ajc, air, apr, bb) => q_A q = Some (mkSmat ajc air apr (u_n u) (u_p u) (get 0 ajc (u_n u))) /\ q_b q = Some bb
         | None => q_A q = None /\ q_b q = None
         end;
  sd_user : match u_perm u with Some P => k_P (q_kkt q) = P /\ r = -3 | None => True end
}.

Lemma u_eqs_given u : u_eqs u = eq_given A (u_p u) (u_Ajc u) (u_Air u) (u_Apr u) (u_b u).
Proof. reflexivity. Qed.

Lemma setup_ok amd u : div_ok A -> valid_user amd u -> wp (setup amd u) (fun q => exists B r, Started u B q r).
Proof.
  intros Hdiv V. destruct V as [Vn Vm [nzP VP] [nzG VG] VA Vc Vh Vs Vp].
  destruct (csc_link zero _ _ _ _ _ _ Vn VP) as [CP [RP SP]].
  destruct (csc_link zero _ _ _ _ _ _ Vn VG) as [CG [RG SG]].
  assert (EP : get 0 (u_Pjc u) (u_n u) = nzP) by (apply get_rd, (cp_last _ _ _ _ _ (ca_pattern _ _ _ _ _ _ VP))).
  assert (EG : get 0 (u_Gjc u) (u_n u) = nzG) by (apply get_rd, (cp_last _ _ _ _ _ (ca_pattern _ _ _ _ _ _ VG))).
  assert (HA : match u_eqs u with
         | Some (ajc, air, apr, bb) => 0 <= u_p u /\ Csc ajc air apr (u_n u) (u_acol u) /\ rows_in (u_p u) (u_n u) (u_acol u)
              /\ vec bb (u_p u) (u_bv u) /\ start (u_acol u) (u_n u) = get 0 ajc (u_n u) /\
              exists nz, csc_arrays (u_p u) (u_n u) ajc air apr nz
         | None => u_acol u = (fun _ => [])
         end).
  { unfold u_acol, u_bv. destruct (u_eqs u) as [[[[ajc air] apr] bb]|] eqn:E; auto.
    destruct (VA _ _ _ _ eq_refl) as [H1 [[nz H2] H3]]. destruct (csc_link zero _ _ _ _ _ _ Vn H2) as [C [R S]].
    split; auto. split; auto. split; auto. split; [apply filled_vec; auto|]. split; [|eauto].
    apply (start_column zero _ _ _ _ _ _ _ Vn H2). lia. }
  assert (UD : UserData A (u_n u) (u_m u) (u_p u) (u_Pjc u) (u_Pir u) (u_Ppr u) (u_eqs u) (u_Gjc u) (u_Gir u) (u_Gpr u)
     (u_c u) (u_h u) (column zero (u_Pjc u) (u_Pir u) (u_Ppr u)) (u_acol u)
     (column zero (u_Gjc u) (u_Gir u) (u_Gpr u)) (get zero (u_c u)) (u_bv u) (get zero (u_h u))).
  { split; auto.
    - destruct (u_eqs u) as [[[[ajc air] apr] bb]|]; auto. destruct HA as [H1 [H2 [H3 [H4 _]]]]. auto.
    - apply filled_vec. auto.
    - apply filled_vec. auto.
    - pose proof (start_nonneg (u_acol u) (u_n u)) as N1.
      pose proof (start_nonneg (column zero (u_Pjc u) (u_Pir u) (u_Ppr u)) (u_n u)) as N2.
      pose proof (start_nonneg (column zero (u_Gjc u) (u_Gir u) (u_Gpr u)) (u_n u)) as N3.
      destruct Vs as [i [j [v [Hj [Hs|[Hs|[ajc [air [apr [bb [E Hs]]]]]]]]]]].
      + pose proof (stored_some zero _ _ _ _ _ _ _ _ _ Vn VP Hj Hs). lia.
      + pose proof (stored_some zero _ _ _ _ _ _ _ _ _ Vn VG Hj Hs). lia.
      + rewrite E in HA. destruct HA as [H1 [H2 [H3 [H4 [H5 [nz H6]]]]]].
        pose proof (stored_some zero _ _ _ _ _ _ _ _ _ Vn H6 Hj Hs).
        rewrite (get_rd 0 _ _ _ (cp_last _ _ _ _ _ (ca_pattern _ _ _ _ _ _ H6))) in H5. lia. }
  assert (HN : u_n u + eff_p (u_p u) (u_eqs u) + u_m u = u_N u) by reflexivity.
  unfold setup. rewrite u_eqs_given in *.
  eapply wp_mono.
  { eapply (QP_SETUP_ok A amd (u_n u) (u_m u) (u_p u)); [exact Hdiv|exact UD|].
    rewrite HN. unfold perm_ok. destruct (u_perm u) as [P|].
    - destruct (perm_link _ _ Vp) as [Qf [H1 H2]]. eauto.
    - intros Jc Ir Pr col P C R Lc L.
      assert (HN0 : 0 <= u_N u) by (rewrite <- L; apply zlen_nonneg).
      assert (Ec : start col (u_N u) <= u_cap u).
      { unfold u_cap. rewrite u_eqs_given. rewrite SP, SG in Lc. unfold u_acol in Lc, HA. rewrite u_eqs_given in Lc, HA.
        destruct (eq_given A (u_p u) (u_Ajc u) (u_Air u) (u_Apr u) (u_b u)) as [[[[ajc air] apr] bb]|].
        - destruct HA as [_ [_ [_ [_ [E _]]]]]. lia.
        - assert (E0 : start (fun _ : Z => @nil (Z * F)) (u_n u) = 0) by (apply sumz_zero; intros; reflexivity). lia. }
      destruct (Vp Jc Ir _ P (ca_pattern _ _ _ _ _ _ (Csc_arrays _ _ _ _ _ _ HN0 C R)) Ec L) as [st [P' [E1 [E2 [E3 E4]]]]].
      exists st, P'. split; auto. split; auto. split.
      + intros Hst. destruct (perm_link _ _ (E3 Hst)) as [Qf [H1 H2]]. eauto.
      + intros Hst. specialize (E4 Hst). unfold u_N. lia. }
  intros q [[Pf [Qf [par [r [H1 [H2 [H3 [HK H4]]]]]]]] [H5 [H6 [H7 [H8 H9]]]]].
  exists (prob_of u Pf Qf par), r. split; auto.
  - exists Pf, Qf, par. reflexivity.
  - rewrite H5. f_equal. rewrite SP. auto.
  - rewrite H6. f_equal. rewrite SG. auto.
  - rewrite u_eqs_given.
    destruct (eq_given A (u_p u) (u_Ajc u) (u_Air u) (u_Apr u) (u_b u)) as [[[[ajc air] apr] bb]|] eqn:E; auto.
    destruct H9 as [G1 G2]. split; auto. rewrite G1. f_equal. f_equal. apply HA.
Qed.

Lemma sd_n u B q r : Started u B q r -> pn B = u_n u /\ pm B = u_m u /\ pp B = u_pe u /\ psd B = u_sigma_d u.
Proof. intros [[Pf [Qf [par ->]]] _ _ _ _ _ _ _ _ _]. auto. Qed.

Lemma sd_K0 u B q r : Started u B q r -> K0 A B = kkt_col A (pn B) (pp B) (pP B) (pA B) (pG B) (minus_one A).
Proof. intros [[Pf [Qf [par ->]]] _ _ _ _ _ _ _ _ _]. reflexivity. Qed.

(** What a session computes. *)
Theorem session_ok amd u l ps : Safe A ps -> valid_user amd u -> quiet_calls u l ->
  exists q0 q B r, setup amd u = Ok q0 /\ Started u B q0 r /\
    session amd u l = Ok (fst (callsF A B (fresh B r) l), q) /\
    At A B q (snd (callsF A B (fresh B r) l)) /\ interior A B ps (sn_pt A (snd (callsF A B (fresh B r) l))) /\
    frame A q0 q.
Proof.
  intros SF V Hq. pose proof (setup_ok amd u (sf_piv _ _ SF) V) as H.
  apply wp_exists in H. destruct H as [q0 [E [B [r HS]]]].
  assert (Hrun : wp (run_calls A q0 l) (fun x => fst x = fst (callsF A B (fresh B r) l) /\
     At A B (snd x) (snd (callsF A B (fresh B r) l)) /\
     interior A B ps (sn_pt A (snd (callsF A B (fresh B r) l))) /\ frame A q0 (snd x))).
  { apply (run_calls_ok A B ps l q0 (fresh B r)); auto.
    - apply HS.
    - apply initF_interior. auto.
    - cbn. discriminate.
    - right. cbn. lia.
    - unfold quiet. destruct (sd_n _ _ _ _ HS) as [_ [_ [-> _]]]. exact Hq. }
  apply wp_exists in Hrun. destruct Hrun as [[codes q] [E2 [H1 [H2 [H3 H4]]]]]. cbn [fst snd] in *.
  exists q0, q, B, r. split; auto. split; auto. split; auto.
  unfold session. rewrite E. cbn [bind]. rewrite E2, H1. reflexivity.
Qed.

End Api.

(** ** Exact arithmetic *)

(** The quadratic program the caller's arrays describe. *)
Definition user_qp (u : user R) : QPdata :=
  match u_eqs u with
  | Some (ajc, air, apr, bb) =>
      mkQPd (u_n u) (u_m u) (u_p u) (mat_entry (u_Pjc u) (u_Pir u) (u_Ppr u)) (mat_entry ajc air apr)
        (mat_entry (u_Gjc u) (u_Gir u) (u_Gpr u)) (get 0%R (u_c u)) (get 0%R bb) (get 0%R (u_h u))
  | None =>
      mkQPd (u_n u) (u_m u) 0 (mat_entry (u_Pjc u) (u_Pir u) (u_Ppr u)) (fun _ _ => 0%R)
        (mat_entry (u_Gjc u) (u_Gir u) (u_Gpr u)) (get 0%R (u_c u)) (fun _ => 0%R) (get 0%R (u_h u))
  end.

Lemma qp_of_user u Pf Qf par : qp_of (prob_of RA u Pf Qf par) = user_qp u.
Proof.
  unfold qp_of, prob_of, user_qp, u_pe, u_acol, u_bv. cbn [car RA pn pm pp pP pA pG pc pb ph] in *.
  destruct (@u_eqs R u) as [[[[ajc air] apr] bb]|]; reflexivity.
Qed.

Lemma started_qp u B q r : Started RA u B q r -> qp_of B = user_qp u.
Proof. intros H. destruct (sd_B _ _ _ _ _ H) as [Pf [Qf [par ->]]]. apply qp_of_user. Qed.

Lemma prob_dims amd u Pf Qf par : valid_user amd u -> Dims (prob_of RA u Pf Qf par).
Proof.
  intros V. destruct V as [Vn Vm [nzP VP] [nzG VG] VA Vc Vh Vs Vp].
  cbn [car RA] in *. split; cbn [prob_of pn pm pp pP pA pG car RA]; auto.
  - unfold u_pe. destruct (@u_eqs R u) as [[[[ajc air] apr] bb]|] eqn:E; [|lia]. apply (VA _ _ _ _ eq_refl).
  - apply (csc_link 0%R _ _ _ _ _ _ Vn VP).
  - apply (csc_link 0%R _ _ _ _ _ _ Vn VG).
  - unfold u_pe, u_acol. cbn [car RA]. destruct (@u_eqs R u) as [[[[ajc air] apr] bb]|] eqn:E; [|intros j r' v _ []].
    destruct (VA _ _ _ _ eq_refl) as [_ [[nz H2] _]]. apply (csc_link 0%R _ _ _ _ _ _ Vn H2).
Qed.

Lemma started_dims amd u B q r : valid_user amd u -> Started RA u B q r -> Dims B.
Proof. intros V H. destruct (sd_B _ _ _ _ _ H) as [Pf [Qf [par ->]]]. eapply prob_dims; eauto. Qed.

Lemma started_rows A amd u B q r : valid_user amd u -> Started A u B q r -> covered u ->
  forall i, 0 <= i < pm B -> tcol (pG B) (pn B) i <> [].
Proof.
  intros V H Hc i Hi E. destruct (sd_B _ _ _ _ _ H) as [Pf [Qf [par ->]]]. cbn in Hi, E.
  destruct (Hc i Hi) as [j [v [Hj Hs]]]. destruct V as [Vn Vm [nzP VP] [nzG VG] VA Vc Vh Vs Vp].
  destruct (csc_link (f0 A) _ _ _ _ _ _ Vn VG) as [C [R S]].
  apply (Csc_stored _ _ _ _ _ _ _ _ C Hj) in Hs.
  assert (Hin : In (j, v) (tcol (column (f0 A) (u_Gjc u) (u_Gir u) (u_Gpr u)) (u_n u) i)) by (apply in_tcol; auto).
  rewrite E in Hin. contradiction.
Qed.
