(** The MATLAB interface and the Simulink blocks (C49-C53). *)
From Coq Require Import ZArith Reals List Lia Lra Bool String.
From Flocq Require Import Core BinarySingleNaN.
From RecordUpdate Require Import RecordUpdate.
From Verif Require Import Res Partial Arith Lists MSparse Csc SemVec MLdl MSolver VecOps Iter SafeInst Setup Session Spec SpecLink QpSpec
  Api Demo P3_Ldl P5_Session P6_Codes P9_Entry MIface P11_Iface MMatlab.
Import ListNotations.
Open Scope Z_scope.
Open Scope res_scope.

Lemma arr_ext {T} (P Q : arr T) : zlen P = zlen Q -> (forall i, 0 <= i < zlen P -> exists v, rd P i = Ok v /\ rd Q i = Ok v) -> P = Q.
Proof.
  intros L H. apply List.nth_ext with (d := None) (d' := None); [unfold zlen in L; lia|].
  intros k Hk. destruct (H (Z.of_nat k)) as [v [E1 E2]]; [unfold zlen; lia|].
  unfold rd in E1, E2. destruct (Z.ltb_spec (Z.of_nat k) 0); [lia|]. rewrite Nat2Z.id in *.
  destruct (nth_error P k) as [[a|]|] eqn:N1; try discriminate. destruct (nth_error Q k) as [[b|]|] eqn:N2; try discriminate.
  rewrite (nth_error_nth _ _ _ N1), (nth_error_nth _ _ _ N2). congruence.
Qed.

Section Matlab.
Variable A : Arith.
Notation F := (car A).
Variable trunc : F -> res Z.

(** ** Specification *)

(** The documented calls: (P, c, G, h), (P, c, G, h, opts), (P, c, A, b, G, h), (P, c, A, b, G, h, opts). *)
Definition documented (prhs : list (mxval A)) (w : mexargs A) : Prop :=
  exists vs, prhs = vs ++ match ma_opts w with Some o => [o] | None => [] end /\
    map v_arr vs = [ma_P w; ma_c w] ++ match ma_eq w with Some (a, b) => [a; b] | None => [] end ++ [ma_G w; ma_h w].

(** The documented shapes. *)
Definition sparse_matrix (a : mxarr A) (r c : Z) : Prop :=
  mx_double a = true /\ mx_sparse a = true /\ mx_complex a = false /\ mx_rows a = r /\ mx_cols a = c.
Definition dense_vector (a : mxarr A) (k : Z) : Prop :=
  mx_double a = true /\ mx_sparse a = false /\ mx_complex a = false /\ 1 <= k /\
  ((mx_rows a = k /\ mx_cols a = 1) \/ (mx_rows a = 1 /\ mx_cols a = k)).
Definition mex_shapes (w : mexargs A) (n m p : Z) : Prop :=
  sparse_matrix (ma_P w) n n /\ dense_vector (ma_c w) n /\ sparse_matrix (ma_G w) m n /\ dense_vector (ma_h w) m /\
  match ma_eq w with Some (a, b) => sparse_matrix a p n /\ dense_vector b p | None => p = 0 end.

(** An option has the value [x]: a field of the upper or, if there is none, of the lower case name, with [x] in front. *)
Definition option_is (w : mexargs A) (up low : string) (x : F) : Prop :=
  exists a, field w up low = Some a /\ rd (mx_pr a) 0 = Ok x.
Definition below (x : F) (z : Z) : Prop := flt A x (fofZ A z) = true.
Definition above (x : F) (z : Z) : Prop := flt A (fofZ A z) x = true.

(** The settings [o] are those the options ask for, and no option is out of range. *)
Record settings_of (w : mexargs A) (o : settings F) : Prop := mkSettingsOf {
  so_maxit : (field w "MAXITER" "maxiter" = None /\ maxit o = 100) \/
             exists x, option_is w "MAXITER" "maxiter" x /\ ~ below x 0 /\ ~ above x 200 /\ trunc x = Ok (maxit o);
  so_abstol : (field w "ABSTOL" "abstol" = None /\ abstol o = fdec A 1 1000000) \/
              exists x, option_is w "ABSTOL" "abstol" x /\ ~ below x 0 /\ ~ above x 1 /\ abstol o = x;
  so_reltol : (field w "RELTOL" "reltol" = None /\ reltol o = fdec A 1 1000000) \/
              exists x, option_is w "RELTOL" "reltol" x /\ ~ below x 0 /\ ~ above x 1 /\ reltol o = x;
  so_sigma : (field w "SIGMA" "sigma" = None /\ sigma o = fofZ A 100) \/
             exists x, option_is w "SIGMA" "sigma" x /\ ~ below x 0 /\ sigma o = x;
  so_verbose : (field w "VERBOSE" "verbose" = None /\ verbose o = 0) \/
               exists x, option_is w "VERBOSE" "verbose" x /\ ~ below x 0 /\ trunc x = Ok (verbose o)
}.

(** Some option is out of range. *)
Definition out_of_range (w : mexargs A) : Prop :=
  (exists x, option_is w "MAXITER" "maxiter" x /\ (below x 0 \/ above x 200)) \/
  (exists x, option_is w "ABSTOL" "abstol" x /\ (below x 0 \/ above x 1)) \/
  (exists x, option_is w "RELTOL" "reltol" x /\ (below x 0 \/ above x 1)) \/
  (exists x, option_is w "SIGMA" "sigma" x /\ below x 0) \/
  (exists x, option_is w "VERBOSE" "verbose" x /\ below x 0).

(** Every option given has a value, and those that become integers can. *)
Definition options_readable (w : mexargs A) : Prop :=
  (forall up low, In (up, low) [("MAXITER", "maxiter"); ("ABSTOL", "abstol"); ("RELTOL", "reltol"); ("SIGMA", "sigma"); ("VERBOSE", "verbose")]%string ->
     field w up low <> None -> exists x, option_is w up low x) /\
  (forall x, option_is w "MAXITER" "maxiter" x -> exists z, trunc x = Ok z) /\
  (forall x, option_is w "VERBOSE" "verbose" x -> exists z, trunc x = Ok z).

(** The permutation the options ask for, if any: MATLAB counts from 1. *)
Definition permutation_of (w : mexargs A) (N : Z) (perm : option (arr Z)) : Prop :=
  match field w "PERMUT" "permut" with
  | None => perm = None
  | Some a => dense_vector a N /\ exists P, perm = Some P /\ permutation_array P N /\ zlen P = N /\
      forall i, 0 <= i < N -> exists x z, rd (mx_pr a) i = Ok x /\ trunc (fsub A x (fofZ A 1)) = Ok z /\ rd P i = Ok z
  end.

(** ** The arguments *)

Lemma parse_ok prhs w : parse A prhs = Some w <-> documented prhs w.
Proof.
  unfold documented. split.
  - intros E. destruct prhs as [|v1 [|v2 [|v3 [|v4 [|v5 [|v6 [|v7 [|v8 r]]]]]]]]; try discriminate E; injection E as <-; cbn [ma_opts ma_eq ma_P ma_c ma_G ma_h].
    + exists [v1; v2; v3; v4]. auto.
    + exists [v1; v2; v3; v4]. auto.
    + exists [v1; v2; v3; v4; v5; v6]. auto.
    + exists [v1; v2; v3; v4; v5; v6]. auto.
  - intros [vs [-> E]]. destruct w as [P c e G h o]. cbn [ma_P ma_c ma_eq ma_G ma_h ma_opts] in *.
    destruct e as [[a b]|]; cbn [app] in E; destruct vs as [|v1 [|v2 [|v3 [|v4 [|v5 [|v6 [|v7 r]]]]]]]; try discriminate E; cbn [map] in E; injection E as <- <- <- <-; subst; destruct o; reflexivity.
Qed.

Lemma real_sparse_ok a r c : real_sparse A a = true /\ mx_rows a = r /\ mx_cols a = c <-> sparse_matrix a r c.
Proof. unfold real_sparse, sparse_matrix. rewrite !andb_true_iff, negb_true_iff. tauto. Qed.

Lemma real_dense_ok a k : real_dense A a = true /\ narrow A a = true /\ longest a = k <-> dense_vector a k.
Proof.
  unfold real_dense, dense_vector, narrow, longest. rewrite !andb_true_iff, !negb_true_iff, Z.eqb_eq. split.
  - intros [[[H1 H2] H3] [H4 H5]]. repeat split; auto; lia.
  - intros [H1 [H2 [H3 [H4 H5]]]]. repeat split; auto; lia.
Qed.

Theorem C49_shapes w : 
  (checks A w = true <-> exists n m p, mex_shapes w n m p) /\
  (forall n m p, mex_shapes w n m p -> n = longest (ma_c w) /\ m = longest (ma_h w) /\ p = dim_p w).
Proof.
  assert (U : forall n m p, mex_shapes w n m p -> n = longest (ma_c w) /\ m = longest (ma_h w) /\ p = dim_p w).
  { intros n m p [_ [H2 [_ [H4 H5]]]]. apply real_dense_ok in H2, H4. unfold dim_p.
    destruct (ma_eq w) as [[a b]|]; [|intuition auto]. destruct H5 as [_ H5]. apply real_dense_ok in H5. intuition auto. }
  split; auto. unfold checks. rewrite !andb_true_iff, !Z.eqb_eq. split.
  - intros H. exists (longest (ma_c w)), (longest (ma_h w)), (dim_p w). unfold mex_shapes.
    rewrite <- !real_sparse_ok, <- !real_dense_ok. unfold dim_p in *. destruct (ma_eq w) as [[a b]|].
    + rewrite <- real_sparse_ok, <- real_dense_ok. rewrite !andb_true_iff, !Z.eqb_eq in H. intuition congruence.
    + intuition congruence.
  - intros [n [m [p H]]]. destruct (U _ _ _ H) as [-> [-> ->]]. destruct H as [H1 [H2 [H3 [H4 H5]]]].
    apply real_sparse_ok in H1, H3. apply real_dense_ok in H2, H4. unfold dim_p in *. destruct (ma_eq w) as [[a b]|].
    + destruct H5 as [H5 H6]. apply real_sparse_ok in H5. apply real_dense_ok in H6. rewrite !andb_true_iff, !Z.eqb_eq. intuition congruence.
    + intuition congruence.
Qed.

(** ** The options *)

Lemma set_option_ok f bad upd o r : set_option A f bad upd o = Ok (Some r) <->
  (f = None /\ r = o) \/ exists a x, f = Some a /\ rd (mx_pr a) 0 = Ok x /\ bad x = false /\ upd x o = Ok r.
Proof.
  unfold set_option. destruct f as [a|].
  - split.
    + destruct (rd (mx_pr a) 0) as [x| |] eqn:E; cbn [bind]; try discriminate. destruct (bad x) eqn:B; [discriminate|].
      destruct (upd x o) as [o'| |] eqn:U; cbn [bind]; try discriminate. intros [= <-]. right. exists a, x. auto.
    + intros [[H _]|[a' [x [[= <-] [E [B U]]]]]]; [discriminate|]. rewrite E. cbn [bind]. rewrite B, U. reflexivity.
  - split; [intros [= <-]; auto|]. intros [[_ ->]|[a [x [H _]]]]; [reflexivity|discriminate].
Qed.

Lemma seq_option_ok m f r : seq_option A m f = Ok (Some r) <-> exists o, m = Ok (Some o) /\ f o = Ok (Some r).
Proof.
  unfold seq_option. split.
  - destruct m as [[o|]| |]; cbn [bind]; try discriminate. eauto.
  - intros [o [-> H]]. exact H.
Qed.

Lemma in_range1 x : flt A x (fofZ A 0) = false <-> ~ below x 0.
Proof. unfold below. rewrite not_true_iff_false. tauto. Qed.
Lemma in_range x k : flt A x (fofZ A 0) || flt A (fofZ A k) x = false <-> ~ below x 0 /\ ~ above x k.
Proof. unfold below, above. rewrite orb_false_iff, !not_true_iff_false. tauto. Qed.
Lemma out_range x k : flt A x (fofZ A 0) || flt A (fofZ A k) x = true <-> below x 0 \/ above x k.
Proof. unfold below, above. rewrite orb_true_iff. tauto. Qed.

Lemma step_maxit w z0 r a s v o : set_option A (field w "MAXITER" "maxiter") (fun x => flt A x (fofZ A 0) || flt A (fofZ A 200) x)
    (fun x o => z <- trunc x ;; Ok (o <| maxit := z |>)) (mkSettings z0 r a s v) = Ok (Some o) <->
  exists z, o = mkSettings z r a s v /\ ((field w "MAXITER" "maxiter" = None /\ z = z0) \/
    exists x, option_is w "MAXITER" "maxiter" x /\ ~ below x 0 /\ ~ above x 200 /\ trunc x = Ok z).
Proof.
  rewrite set_option_ok. unfold option_is. split.
  - intros [[H ->]|[b [x [H [E [B U]]]]]]; [eauto|]. apply in_range in B. destruct (trunc x) as [z| |] eqn:T; cbn in U; try discriminate.
    injection U as <-. exists z. split; auto. right. exists x. repeat split; try apply B; eauto.
  - intros [z [-> [[H ->]|[x [[b [H E]] [B1 [B2 T]]]]]]]; [auto|]. right. exists b, x. repeat split; auto; [apply in_range; auto|]. rewrite T. reflexivity.
Qed.
Lemma step_abstol w z r a0 s v o : set_option A (field w "ABSTOL" "abstol") (fun x => flt A x (fofZ A 0) || flt A (fofZ A 1) x)
    (fun x o => Ok (o <| abstol := x |>)) (mkSettings z r a0 s v) = Ok (Some o) <->
  exists a, o = mkSettings z r a s v /\ ((field w "ABSTOL" "abstol" = None /\ a = a0) \/
    exists x, option_is w "ABSTOL" "abstol" x /\ ~ below x 0 /\ ~ above x 1 /\ a = x).
Proof.
  rewrite set_option_ok. unfold option_is. split.
  - intros [[H ->]|[b [x [H [E [B U]]]]]]; [eauto|]. apply in_range in B. injection U as <-. exists x. split; auto. right. exists x. repeat split; try apply B; eauto.
  - intros [a [-> [[H ->]|[x [[b [H E]] [B1 [B2 T]]]]]]]; [auto|]. right. exists b, x. repeat split; auto; [apply in_range; auto|]. subst. reflexivity.
Qed.
Lemma step_reltol w z r0 a s v o : set_option A (field w "RELTOL" "reltol") (fun x => flt A x (fofZ A 0) || flt A (fofZ A 1) x)
    (fun x o => Ok (o <| reltol := x |>)) (mkSettings z r0 a s v) = Ok (Some o) <->
  exists r, o = mkSettings z r a s v /\ ((field w "RELTOL" "reltol" = None /\ r = r0) \/
    exists x, option_is w "RELTOL" "reltol" x /\ ~ below x 0 /\ ~ above x 1 /\ r = x).
Proof.
  rewrite set_option_ok. unfold option_is. split.
  - intros [[H ->]|[b [x [H [E [B U]]]]]]; [eauto|]. apply in_range in B. injection U as <-. exists x. split; auto. right. exists x. repeat split; try apply B; eauto.
  - intros [r [-> [[H ->]|[x [[b [H E]] [B1 [B2 T]]]]]]]; [auto|]. right. exists b, x. repeat split; auto; [apply in_range; auto|]. subst. reflexivity.
Qed.
Lemma step_sigma w z r a s0 v o : set_option A (field w "SIGMA" "sigma") (fun x => flt A x (fofZ A 0))
    (fun x o => Ok (o <| sigma := x |>)) (mkSettings z r a s0 v) = Ok (Some o) <->
  exists s, o = mkSettings z r a s v /\ ((field w "SIGMA" "sigma" = None /\ s = s0) \/
    exists x, option_is w "SIGMA" "sigma" x /\ ~ below x 0 /\ s = x).
Proof.
  rewrite set_option_ok. unfold option_is. split.
  - intros [[H ->]|[b [x [H [E [B U]]]]]]; [eauto|]. apply in_range1 in B. injection U as <-. exists x. split; auto. right. exists x. repeat split; try apply B; eauto.
  - intros [s [-> [[H ->]|[x [[b [H E]] [B1 T]]]]]]; [auto|]. right. exists b, x. repeat split; auto; [apply in_range1; auto|]. subst. reflexivity.
Qed.
Lemma step_verbose w z r a s v0 o : set_option A (field w "VERBOSE" "verbose") (fun x => flt A x (fofZ A 0))
    (fun x o => z <- trunc x ;; Ok (o <| verbose := z |>)) (mkSettings z r a s v0) = Ok (Some o) <->
  exists v, o = mkSettings z r a s v /\ ((field w "VERBOSE" "verbose" = None /\ v = v0) \/
    exists x, option_is w "VERBOSE" "verbose" x /\ ~ below x 0 /\ trunc x = Ok v).
Proof.
  rewrite set_option_ok. unfold option_is. split.
  - intros [[H ->]|[b [x [H [E [B U]]]]]]; [eauto|]. apply in_range1 in B. destruct (trunc x) as [v| |] eqn:T; cbn in U; try discriminate.
    injection U as <-. exists v. split; auto. right. exists x. repeat split; try apply B; eauto.
  - intros [v [-> [[H ->]|[x [[b [H E]] [B1 T]]]]]]; [auto|]. right. exists b, x. repeat split; auto; [apply in_range1; auto|]. rewrite T. reflexivity.
Qed.

(** The settings the solver runs with are exactly the ones asked for. *)
Theorem C50_settings w o : set_options A trunc w (default_settings A) = Ok (Some o) <-> settings_of w o.
Proof.
  unfold set_options, default_settings. split.
  - intros H. apply seq_option_ok in H. destruct H as [o1 [H1 H]]. apply step_maxit in H1. destruct H1 as [z [-> H1]].
    apply seq_option_ok in H. destruct H as [o2 [H2 H]]. apply step_abstol in H2. destruct H2 as [a [-> H2]].
    apply seq_option_ok in H. destruct H as [o3 [H3 H]]. apply step_reltol in H3. destruct H3 as [r [-> H3]].
    apply seq_option_ok in H. destruct H as [o4 [H4 H5]]. apply step_sigma in H4. destruct H4 as [s [-> H4]].
    apply step_verbose in H5. destruct H5 as [v [-> H5]]. split; cbn [maxit reltol abstol sigma verbose]; auto.
  - intros [H1 H2 H3 H4 H5]. destruct o as [z r a s v]. cbn [maxit reltol abstol sigma verbose] in *.
    apply seq_option_ok. eexists. split; [apply step_maxit; eexists; split; [reflexivity|exact H1]|].
    apply seq_option_ok. eexists. split; [apply step_abstol; eexists; split; [reflexivity|exact H2]|].
    apply seq_option_ok. eexists. split; [apply step_reltol; eexists; split; [reflexivity|exact H3]|].
    apply seq_option_ok. eexists. split; [apply step_sigma; eexists; split; [reflexivity|exact H4]|].
    apply step_verbose. eexists. split; [reflexivity|exact H5].
Qed.

(** An option out of range is an error. *)
Theorem C50_out_of_range w : options_readable w -> 
  (set_options A trunc w (default_settings A) = Ok None <-> out_of_range w) /\
  (~ out_of_range w -> exists o, settings_of w o).
Proof.
  intros [HR [HM HV]].
  assert (ST : forall up low bad upd o, In (up, low) [("MAXITER", "maxiter"); ("ABSTOL", "abstol"); ("RELTOL", "reltol"); ("SIGMA", "sigma"); ("VERBOSE", "verbose")]%string ->
    (forall x o, option_is w up low x -> exists o', upd x o = Ok o') ->
    (set_option A (field w up low) bad upd o = Ok None /\ exists x, option_is w up low x /\ bad x = true) \/
    ((exists o', set_option A (field w up low) bad upd o = Ok (Some o')) /\ forall x, option_is w up low x -> bad x = false)).
  { intros up low bad upd o Hin HU. specialize (HR up low Hin). unfold option_is in *. unfold set_option.
    destruct (field w up low) as [a|].
    - destruct (HR ltac:(discriminate)) as [x [b [[= <-] E]]]. rewrite E. cbn [bind]. destruct (bad x) eqn:B.
      + left. split; auto. exists x. split; eauto.
      + right. split.
        * destruct (HU x o ltac:(eauto)) as [o' ->]. exists o'. reflexivity.
        * intros x' [b [[= <-] E']]. congruence.
    - right. split; [eauto|]. intros x [a [H _]]. discriminate. }
  assert (OU : forall w', (set_options A trunc w (default_settings A) = Ok None /\ out_of_range w') \/ ((exists o, set_options A trunc w (default_settings A) = Ok (Some o)) /\ ~ out_of_range w') ->
     w' = w -> (set_options A trunc w (default_settings A) = Ok None <-> out_of_range w) /\ (~ out_of_range w -> exists o, settings_of w o)).
  { intros w' H ->. destruct H as [[H1 H2]|[[o H1] H2]]; [tauto|]. split; [rewrite H1; split; [discriminate|tauto]|]. intros _. exists o. apply C50_settings. auto. }
  apply (OU w); auto. clear OU. unfold out_of_range, set_options.
  match goal with |- context [set_option A _ ?b ?u (default_settings A)] => destruct (ST "MAXITER" "maxiter" b u (default_settings A))%string as [[-> [x [Hx Bx]]]|[[o1 ->] N1]] end; [cbn; auto 8|intros x o Hx; destruct (HM x Hx) as [z ->]; eexists; reflexivity| |].
  { left. split; [reflexivity|]. left. exists x. split; auto. apply out_range. auto. }
  cbn [seq_option bind].
  match goal with |- context [set_option A _ ?b ?u o1] => destruct (ST "ABSTOL" "abstol" b u o1)%string as [[-> [x [Hx Bx]]]|[[o2 ->] N2]] end; [cbn; auto 8|intros x o Hx; eexists; reflexivity| |].
  { left. split; [reflexivity|]. right. left. exists x. split; auto. apply out_range. auto. }
  cbn [seq_option bind].
  match goal with |- context [set_option A _ ?b ?u o2] => destruct (ST "RELTOL" "reltol" b u o2)%string as [[-> [x [Hx Bx]]]|[[o3 ->] N3]] end; [cbn; auto 8|intros x o Hx; eexists; reflexivity| |].
  { left. split; [reflexivity|]. right. right. left. exists x. split; auto. apply out_range. auto. }
  cbn [seq_option bind].
  match goal with |- context [set_option A _ ?b ?u o3] => destruct (ST "SIGMA" "sigma" b u o3)%string as [[-> [x [Hx Bx]]]|[[o4 ->] N4]] end; [cbn; auto 8|intros x o Hx; eexists; reflexivity| |].
  { left. split; [reflexivity|]. right. right. right. left. exists x. split; auto. }
  cbn [seq_option bind].
  match goal with |- context [set_option A _ ?b ?u o4] => destruct (ST "VERBOSE" "verbose" b u o4)%string as [[-> [x [Hx Bx]]]|[[o5 ->] N5]] end; [cbn; auto 8|intros x o Hx; destruct (HV x Hx) as [z ->]; eexists; reflexivity| |].
  { left. split; [reflexivity|]. right. right. right. right. exists x. split; auto. }
  right. split; [eauto|]. intros [[x [Hx Bx]]|[[x [Hx Bx]]|[[x [Hx Bx]]|[[x [Hx Bx]]|[x [Hx Bx]]]]]].
  - specialize (N1 x Hx). apply out_range in Bx. congruence.
  - specialize (N2 x Hx). apply out_range in Bx. congruence.
  - specialize (N3 x Hx). apply out_range in Bx. congruence.
  - specialize (N4 x Hx). unfold below in Bx. congruence.
  - specialize (N5 x Hx). unfold below in Bx. congruence.
Qed.

(** ** The permutation *)

Lemma permutation_option_ok w n m p : mex_shapes w n m p ->
  (forall a, field w "PERMUT" "permut" = Some a -> dense_vector a (n + m + p) ->
     forall i, 0 <= i < n + m + p -> exists x z, rd (mx_pr a) i = Ok x /\ trunc (fsub A x (fofZ A 1)) = Ok z) ->
  (exists perm, permutation_of w (n + m + p) perm /\ permutation_option A trunc w = Ok (Some perm)) \/
  ((forall perm, ~ permutation_of w (n + m + p) perm) /\ permutation_option A trunc w = Ok None).
Proof.
  intros HS HR. destruct (proj2 (C49_shapes w) _ _ _ HS) as [En [Em Ep]].
  unfold permutation_option, permutation_of. rewrite <- En, <- Em, <- Ep. replace (m + n + p) with (n + m + p) by lia. set (N := n + m + p) in *.
  destruct (field w "PERMUT" "permut") as [a|]; [|left; eauto]. specialize (HR a eq_refl).
  destruct (real_dense A a && narrow A a && (longest a =? N)) eqn:B; cbn [negb].
  2:{ right. split; auto. intros perm [HD _]. apply real_dense_ok in HD. destruct HD as [H1 [H2 H3]]. rewrite H1, H2, H3, Z.eqb_refl in B. discriminate. }
  rewrite !andb_true_iff, Z.eqb_eq in B. assert (HD : dense_vector a N) by (apply real_dense_ok; tauto). specialize (HR HD).
  assert (HN : 0 <= N) by (destruct HD as [_ [_ [_ [H _]]]]; lia).
  assert (W : wp (for_ 0 N (fun i P => x <- rd (mx_pr a) i ;; z <- trunc (fsub A x (fofZ A 1)) ;; wr P i z) (malloc Z N))
     (fun P => zlen P = N /\ forall i, 0 <= i < N -> exists x z, rd (mx_pr a) i = Ok x /\ trunc (fsub A x (fofZ A 1)) = Ok z /\ rd P i = Ok z)).
  { apply (wp_for_le (fun k P => zlen P = N /\ forall i, 0 <= i < k -> exists x z, rd (mx_pr a) i = Ok x /\ trunc (fsub A x (fofZ A 1)) = Ok z /\ rd P i = Ok z)); auto.
    - split; [rewrite zlen_malloc; lia|]. intros; lia.
    - intros k P Hk [LP RP]. destruct (HR k ltac:(lia)) as [x [z [E1 E2]]]. rewrite E1. cbn [bind]. rewrite E2. cbn [bind].
        apply wp_wr; [lia|]. intros P' L R. split; [lia|]. intros i Hi. rewrite R. destruct (Z.eqb_spec i k) as [->|Hne].
        * exists x, z. auto.
        * apply RP. lia. }
  apply wp_exists in W. destruct W as [P [-> [LP RP]]]. cbn [bind].
  assert (FP : filled P N) by (intros i Hi; destruct (RP i Hi) as [x [z [_ [_ E]]]]; exists z; exact E).
  destruct (C31_valid_perm N (Some P) (Some (malloc Z N))) as [r [-> [[-> [_ [_ H]]]|[-> [H|[H|[P' [[= <-] H]]]]]]]]; cbn [bind];
    try (intros P' [= <-]; auto; rewrite zlen_malloc; lia); try discriminate H; try lia.
  - left. exists (Some P). split; auto. split; auto. exists P. split; auto.
  - right. split; auto. intros perm [_ [P' [-> [HP [LP' RP']]]]]. apply H.
    assert (EQ : forall i, 0 <= i < N -> rd P i = rd P' i).
    { intros i Hi. destruct (RP i Hi) as [x [z [E1 [E2 ->]]]]. destruct (RP' i Hi) as [x' [z' [E1' [E2' ->]]]]. congruence. }
    destruct HP as [Q1 Q2]. split.
    + intros i Hi. destruct (Q1 i Hi) as [v Hv]. exists v. rewrite EQ by auto. exact Hv.
    + intros i j v Hi Hj. rewrite !EQ by auto. apply Q2; auto.
Qed.

(** ** One solve *)

Variable ps : F -> Prop.
Hypothesis SF : Safe A ps.

(** A handle with vectors of the right lengths. *)
Record outcome (u : user F) (o : settings F) (code : Z) (q : qp F) : Prop := mkOutcome {
  oc_n : q_n q = u_n u; oc_m : q_m q = u_m u; oc_p : q_p q = u_pe u;
  oc_x : exists f, is_vec (q_x q) (u_n u) f; oc_y : exists f, is_vec (q_y q) (u_pe u) f;
  oc_z : exists f, is_vec (q_z q) (u_m u) f; oc_s : exists f, is_vec (q_s q) (u_m u) f;
  oc_fval : fval (q_stats q) <> None <-> 0 < maxit o;
  oc_code : 0 <= maxit o -> code = 0 \/ code = 2
}.

Lemma run_once amd u o : valid_user amd u -> quiet_calls A u [SetOptions A o; Solve A] ->
  exists q0 code q, setup A amd u = Ok q0 /\ q_options q0 = default_settings A /\
    QP_SOLVE A (q0 <| q_options := o |>) = Ok (code, q) /\
    session A amd u [SetOptions A o; Solve A] = Ok ([code], q) /\ outcome u o code q.
Proof.
  intros VU Hq. destruct (session_from A ps SF amd u VU) as [q0 [B [r [E0 [HB HF]]]]]. destruct (HF _ Hq) as [q [Eq [HA Hi]]].
  set (s1 := set_o A (fresh A B r) o) in *.
  change (callsF A B (fresh A B r) [SetOptions A o; Solve A]) with
    ([Flag (sn_st A (solveF A B s1))], solveF A B s1) in *. cbn [fst snd] in *.
  set (code := Flag (sn_st A (solveF A B s1))) in *.
  exists q0, code, q. split; auto. split; [apply (at_o _ _ _ _ (sd_at _ _ _ _ _ HB))|].
  assert (Es : QP_SOLVE A (q0 <| q_options := o |>) = Ok (code, q)).
  { unfold session in Eq. rewrite E0 in Eq. cbn [bind run_calls] in Eq. destruct (QP_SOLVE A (q0 <| q_options := o |>)) as [[c q']| |]; cbn in Eq; try discriminate.
    injection Eq as -> ->. reflexivity. }
  split; auto. split; auto.
  pose proof (at_base _ _ _ _ HA) as HBase. pose proof (at_pt _ _ _ _ HA) as HPt.
  destruct (sd_n _ _ _ _ _ HB) as [Dn [Dm [Dp _]]].
  pose proof (b_n _ _ _ HBase) as Bn. pose proof (b_m _ _ _ HBase) as Bm. pose proof (b_p _ _ _ HBase) as Bp.
  rewrite Dn in Bn. rewrite Dm in Bm. rewrite Dp in Bp.
  split; auto.
  - rewrite <- Dn. eexists. apply HPt.
  - rewrite <- Dp. eexists. apply HPt.
  - rewrite <- Dm. eexists. apply HPt.
  - rewrite <- Dm. eexists. apply HPt.
  - rewrite (at_st _ _ _ _ HA). unfold solveF. change (maxit (sn_o A s1)) with (maxit o).
    assert (EF : forall s2, fval (sn_st A (finalF A s2)) = fval (sn_st A s2)) by (intros s2; unfold finalF; destruct (_ =? _); reflexivity).
    rewrite EF. split.
    + intros H. destruct (Z.le_gt_cases (maxit o) 0) as [Hm|Hm]; [|lia]. exfalso. apply H. replace (Z.to_nat (maxit o)) with O by lia. reflexivity.
    + intros H. apply runF_fval. lia.
  - intros Hm. unfold code. change (Flag (sn_st A s1)) with QP_FATAL.
    destruct (solveF_any A B s1) as [[i [_ [_ [_ [H1 [H2 H3]]]]]]|[_ [_ [H1 H3]]]]; rewrite H3; change (sn_o A s1) with o in *.
    + destruct (_ =? _); auto.
    + change (IterationCount (sn_st A s1)) with 0 in H1. rewrite H1. replace (0 + Z.max 0 (maxit o)) with (maxit o) by lia. rewrite Z.eqb_refl. auto.
Qed.

(** The call of QP_SETUP that a MATLAB call makes. *)
Definition user_of (w : mexargs A) (n m p : Z) (perm : option (arr Z)) : user F :=
  mkUser n m p (mx_jc (ma_P w)) (mx_ir (ma_P w)) (mx_pr (ma_P w))
    (match ma_eq w with Some (a, _) => Some (mx_jc a) | None => None end)
    (match ma_eq w with Some (a, _) => Some (mx_ir a) | None => None end)
    (match ma_eq w with Some (a, _) => Some (mx_pr a) | None => None end)
    (mx_jc (ma_G w)) (mx_ir (ma_G w)) (mx_pr (ma_G w)) (mx_pr (ma_c w)) (mx_pr (ma_h w))
    (match ma_eq w with Some (_, b) => Some (mx_pr b) | None => None end) (fofZ A 0) perm.

(** The outputs report the exit code and the handle; there are [nlhs] of them. *)
Definition reports (nlhs n m p code : Z) (q : qp F) (r : mexresult A) : Prop :=
  lists A (q_x q) n (mr_x r) /\
  (if nlhs =? 1 then mr_basic r = None else mr_basic r = Some (code, IterationCount (q_stats q))) /\
  (if nlhs =? 3 then exists f y z s, mr_adv r = Some (f, y, z, s) /\ fval (q_stats q) = Some f /\ lists A (q_z q) m z /\ lists A (q_s q) m s /\
      (if p =? 0 then y = None else exists y', y = Some y' /\ lists A (q_y q) p y')
   else mr_adv r = None).

Lemma mex_unfold amd nlhs prhs w n m p perm : 1 <= nlhs <= 3 -> documented prhs w -> mex_shapes w n m p ->
  permutation_option A trunc w = Ok (Some perm) ->
  mexFunction A trunc amd nlhs prhs = (
          q <- setup A amd (user_of w n m p perm) ;;
          r <- set_options A trunc w (q_options q) ;;
          match r with
          | None => Ok MexError
          | Some o =>
              '(code, q) <- QP_SOLVE A (q <| q_options := o |>) ;;
              x <- copy A (q_x q) n ;;
              let basic := Some (code, IterationCount (q_stats q)) in
              if nlhs =? 1 then Ok (Outputs (mkMexresult x None None))
              else if nlhs =? 2 then Ok (Outputs (mkMexresult x basic None))
              else
                y <- (if p =? 0 then Ok None else y <- copy A (q_y q) p ;; Ok (Some y)) ;;
                fv <- use (fval (q_stats q)) ;;
                z <- copy A (q_z q) m ;;
                s <- copy A (q_s q) m ;;
                Ok (Outputs (mkMexresult x basic (Some (fv, y, z, s))))
          end).
Proof.
  intros Hl HD HS HP. unfold mexFunction. destruct (Z.eqb_spec nlhs 0) as [?N0|?N0]; [lia|]. rewrite (proj2 (parse_ok _ _) HD).
  destruct (Z.ltb_spec nlhs 0); [lia|]. destruct (Z.ltb_spec 3 nlhs); [lia|]. cbn [orb].
  destruct (C49_shapes w) as [S1 S2]. rewrite (proj2 S1) by eauto. cbn [negb]. rewrite HP. cbn [bind].
  destruct (S2 _ _ _ HS) as [<- [<- <-]]. unfold setup, user_of.
  cbn [u_n u_m u_p u_Pjc u_Pir u_Ppr u_Ajc u_Air u_Apr u_Gjc u_Gir u_Gpr u_c u_h u_b u_sigma_d u_perm].
  destruct (ma_eq w) as [[a b]|] eqn:E; [reflexivity|]. destruct HS as [_ [_ [_ [_ HS]]]]. rewrite E in HS. rewrite HS. reflexivity.
Qed.

Lemma eqs_of w n m p perm : mex_shapes w n m p -> u_pe (user_of w n m p perm) = p.
Proof.
  intros [_ [_ [_ [_ HE]]]]. unfold u_pe, u_eqs, user_of. cbn [u_Apr u_Ajc u_Air u_b u_p].
  destruct (ma_eq w) as [[a b]|]; auto. destruct HE as [_ [_ [_ [_ [H _]]]]]. destruct (Z.eqb_spec p 0); [lia|reflexivity].
Qed.

Lemma permutation_unique w N P Q : permutation_of w N P -> permutation_of w N Q -> P = Q.
Proof.
  unfold permutation_of. destruct (field w "PERMUT" "permut") as [a|]; [|congruence].
  intros [_ [P' [-> [_ [LP RP]]]]] [_ [Q' [-> [_ [LQ RQ]]]]]. f_equal. apply arr_ext; [congruence|]. rewrite LP. intros i Hi.
  destruct (RP i Hi) as [x [z [E1 [E2 E3]]]]. destruct (RQ i Hi) as [x' [z' [E1' [E2' E3']]]]. exists z. split; congruence.
Qed.

Lemma permutation_chosen w n m p perm : mex_shapes w n m p -> permutation_of w (n + m + p) perm -> permutation_option A trunc w = Ok (Some perm).
Proof.
  intros HS HP. destruct (permutation_option_ok w n m p HS) as [[P [H1 H2]]|[H _]].
  - intros a E _ i Hi. unfold permutation_of in HP. rewrite E in HP. destruct HP as [_ [P [_ [_ [_ R]]]]]. destruct (R i Hi) as [x [z [H1 [H2 _]]]]. eauto.
  - rewrite H2. do 2 f_equal. eapply permutation_unique; eauto.
  - exfalso. eapply H; eauto.
Qed.

(** Right shapes, options in range: the call is a session, and the outputs are what is in the handle. *)
Theorem C51_runs amd nlhs prhs w n m p perm o : 1 <= nlhs <= 3 -> documented prhs w -> mex_shapes w n m p ->
  permutation_of w (n + m + p) perm -> settings_of w o -> valid_user amd (user_of w n m p perm) ->
  p <> 0 \/ verbose o <= 0 -> (nlhs = 3 -> 1 <= maxit o) ->
  exists code q r, session A amd (user_of w n m p perm) [SetOptions A o; Solve A] = Ok ([code], q) /\
    mexFunction A trunc amd nlhs prhs = Ok (Outputs r) /\ reports nlhs n m p code q r /\ (0 <= maxit o -> code = 0 \/ code = 2).
Proof.
  intros Hl HD HS HP HO HV Hq Hf. rewrite (mex_unfold amd nlhs prhs w n m p perm Hl HD HS (permutation_chosen _ _ _ _ _ HS HP)).
  destruct (run_once amd (user_of w n m p perm) o HV) as [q0 [code [q [E0 [Eo [Es [Eq [On Om Op Ox Oy Oz Os Ofv Oc]]]]]]]].
  { unfold quiet_calls. rewrite (eqs_of _ _ _ _ _ HS). destruct Hq as [Hq|Hq]; auto. right. intros o' [[= <-]|[H|[]]]; [auto|discriminate]. }
  rewrite (eqs_of _ _ _ _ _ HS) in *. cbn [user_of u_n u_m] in On, Om, Ox, Oz, Os.
  assert (Dn : 0 <= n /\ 0 <= m /\ 0 <= p).
  { destruct HS as [_ [[_ [_ [_ [H1 _]]]] [_ [[_ [_ [_ [H2 _]]]] H3]]]]. split; [lia|]. split; [lia|]. destruct (ma_eq w) as [[a b]|]; [|lia].
    destruct H3 as [_ [_ [_ [_ [H3 _]]]]]. lia. }
  destruct Ox as [fx Ox], Oy as [fy Oy], Oz as [fz Oz], Os as [fs Os].
  destruct (proj1 (wp_exists _ _) (copy_ok A _ _ _ Ox ltac:(lia))) as [x [Ex Lx]].
  destruct (proj1 (wp_exists _ _) (copy_ok A _ _ _ Oy ltac:(lia))) as [y [Ey Ly]].
  destruct (proj1 (wp_exists _ _) (copy_ok A _ _ _ Oz ltac:(lia))) as [z [Ez Lz]].
  destruct (proj1 (wp_exists _ _) (copy_ok A _ _ _ Os ltac:(lia))) as [s [Es' Ls]].
  exists code, q. rewrite E0. cbn [bind]. rewrite Eo, (proj2 (C50_settings w o) HO). cbn [bind]. rewrite Es. cbn [bind]. rewrite Ex. cbn [bind]. cbv zeta.
  unfold reports. destruct (Z.eqb_spec nlhs 1) as [L1|L1]; [subst nlhs; eexists; split; [exact Eq|]; split; [reflexivity|]; cbn; auto|].
  destruct (Z.eqb_spec nlhs 2) as [L2|L2]; [subst nlhs; eexists; split; [exact Eq|]; split; [reflexivity|]; cbn; auto|].
  assert (L3 : nlhs = 3) by lia. subst nlhs. destruct (fval (q_stats q)) as [fv|] eqn:Ef.
  2:{ exfalso. apply Ofv; auto. specialize (Hf eq_refl). lia. }
  cbn [use]. rewrite Ez, Es', Ey. cbn [bind].
  change (3 =? 3) with true. cbn iota.
  destruct (p =? 0); eexists; (split; [exact Eq|]); (split; [reflexivity|]); (split; [|exact Oc]); cbn [mr_x mr_basic mr_adv]; (split; [auto|]); (split; [auto|]);
    eexists _, _, _, _; (split; [reflexivity|]); auto. split; auto. split; auto. split; eauto.
Qed.

(** Three outputs and zero iterations: Fval is read although nothing has been written there. *)
Theorem C51_fval_uninitialised amd prhs w n m p perm o : documented prhs w -> mex_shapes w n m p ->
  permutation_of w (n + m + p) perm -> settings_of w o -> valid_user amd (user_of w n m p perm) ->
  p <> 0 \/ verbose o <= 0 -> maxit o <= 0 -> mexFunction A trunc amd 3 prhs = Ub Uninit.
Proof.
  intros HD HS HP HO HV Hq Hf. rewrite (mex_unfold amd 3 prhs w n m p perm ltac:(lia) HD HS (permutation_chosen _ _ _ _ _ HS HP)).
  destruct (run_once amd (user_of w n m p perm) o HV) as [q0 [code [q [E0 [Eo [Es [Eq [On Om Op Ox Oy Oz Os Ofv Oc]]]]]]]].
  { unfold quiet_calls. rewrite (eqs_of _ _ _ _ _ HS). destruct Hq as [Hq|Hq]; auto. right. intros o' [[= <-]|[H|[]]]; [auto|discriminate]. }
  rewrite (eqs_of _ _ _ _ _ HS) in *. cbn [user_of u_n u_m] in On, Om, Ox, Oz, Os.
  assert (Dn : 0 <= n /\ 0 <= p).
  { destruct HS as [_ [[_ [_ [_ [H1 _]]]] [_ [_ H3]]]]. split; [lia|]. destruct (ma_eq w) as [[a b]|]; [|lia]. destruct H3 as [_ [_ [_ [_ [H3 _]]]]]. lia. }
  destruct Ox as [fx Ox], Oy as [fy Oy].
  destruct (proj1 (wp_exists _ _) (copy_ok A _ _ _ Ox ltac:(lia))) as [x [Ex Lx]].
  destruct (proj1 (wp_exists _ _) (copy_ok A _ _ _ Oy ltac:(lia))) as [y [Ey Ly]].
  rewrite E0. cbn [bind]. rewrite Eo, (proj2 (C50_settings w o) HO). cbn [bind]. rewrite Es. cbn [bind]. rewrite Ex. cbn [bind]. cbv zeta.
  change (3 =? 1) with false. change (3 =? 2) with false. cbn iota.
  destruct (fval (q_stats q)) as [fv|] eqn:Ef; [exfalso; enough (0 < maxit o) by lia; apply Ofv; discriminate|].
  destruct (p =? 0); [reflexivity|]. rewrite Ey. reflexivity.
Qed.

(** Wrong calls end in an error message, without solving: a wrong number of outputs or arguments, a wrong shape, ... *)
Theorem C49_errors amd nlhs prhs : nlhs <> 0 ->
  ~ 1 <= nlhs <= 3 \/ (~ exists w n m p, documented prhs w /\ mex_shapes w n m p) -> mexFunction A trunc amd nlhs prhs = Ok MexError.
Proof.
  intros H0 H. unfold mexFunction. destruct (Z.eqb_spec nlhs 0) as [?N0|?N0]; [lia|]. destruct (parse A prhs) as [w|] eqn:E; auto. apply parse_ok in E.
  destruct ((nlhs <? 0) || (3 <? nlhs)) eqn:B; auto. rewrite orb_false_iff, !Z.ltb_ge in B. destruct H as [H|H]; [lia|].
  destruct (checks A w) eqn:C; auto. exfalso. apply C49_shapes in C. destruct C as [n [m [p C]]]. apply H. exists w, n, m, p. auto.
Qed.

(** ... a vector that is not a permutation, ... *)
Theorem C52_errors amd nlhs prhs w n m p : nlhs <> 0 -> documented prhs w -> mex_shapes w n m p ->
  (forall a, field w "PERMUT" "permut" = Some a -> dense_vector a (n + m + p) ->
     forall i, 0 <= i < n + m + p -> exists x z, rd (mx_pr a) i = Ok x /\ trunc (fsub A x (fofZ A 1)) = Ok z) ->
  (forall perm, ~ permutation_of w (n + m + p) perm) -> mexFunction A trunc amd nlhs prhs = Ok MexError.
Proof.
  intros H0 HD HS HR HN. unfold mexFunction. destruct (Z.eqb_spec nlhs 0) as [?N0|?N0]; [lia|]. rewrite (proj2 (parse_ok _ _) HD).
  destruct ((nlhs <? 0) || (3 <? nlhs)) eqn:B; auto. destruct (C49_shapes w) as [S1 S2]. rewrite (proj2 S1) by eauto. cbn [negb].
  destruct (permutation_option_ok w n m p HS HR) as [[perm [H1 H2]]|[_ ->]]; [|reflexivity]. exfalso. eapply HN; eauto.
Qed.

(** ... an option out of range. *)
Theorem C50_errors amd nlhs prhs w n m p perm : 1 <= nlhs <= 3 -> documented prhs w -> mex_shapes w n m p ->
  permutation_of w (n + m + p) perm -> valid_user amd (user_of w n m p perm) -> options_readable w -> out_of_range w ->
  mexFunction A trunc amd nlhs prhs = Ok MexError.
Proof.
  intros Hl HD HS HP HV HR HO. rewrite (mex_unfold amd nlhs prhs w n m p perm Hl HD HS (permutation_chosen _ _ _ _ _ HS HP)).
  destruct (run_once amd (user_of w n m p perm) (default_settings A) HV) as [q0 [code [q [E0 [Eo _]]]]].
  { right. intros o' [[= <-]|[H|[]]]; [cbn; lia|discriminate]. }
  rewrite E0. cbn [bind]. rewrite Eo. rewrite (proj2 (proj1 (C50_out_of_range w HR)) HO). reflexivity.
Qed.

(** Calling without outputs prints a text and does nothing else. *)
Theorem C49_help amd prhs : mexFunction A trunc amd 0 prhs = Ok Help.
Proof. reflexivity. Qed.

(** Any other field of the options is ignored, the documented name "Permut" among them. *)
Definition same_options (w w' : mexargs A) : Prop :=
  ma_P w' = ma_P w /\ ma_c w' = ma_c w /\ ma_eq w' = ma_eq w /\ ma_G w' = ma_G w /\ ma_h w' = ma_h w /\
  match ma_opts w, ma_opts w' with
  | Some v, Some v' => forall k, In k ["MAXITER"; "maxiter"; "ABSTOL"; "abstol"; "RELTOL"; "reltol"; "VERBOSE"; "verbose"; "SIGMA"; "sigma"; "PERMUT"; "permut"]%string ->
       v_field v' k = v_field v k
  | None, None => True
  | _, _ => False
  end.

Theorem C52_other_fields amd nlhs prhs prhs' w w' : documented prhs w -> documented prhs' w' -> same_options w w' ->
  mexFunction A trunc amd nlhs prhs' = mexFunction A trunc amd nlhs prhs.
Proof.
  intros HD HD' [E1 [E2 [E3 [E4 [E5 E6]]]]]. unfold mexFunction. rewrite (proj2 (parse_ok _ _) HD), (proj2 (parse_ok _ _) HD').
  destruct w as [P c e G h o], w' as [P' c' e' G' h' o']. cbn [ma_P ma_c ma_eq ma_G ma_h ma_opts] in *. subst.
  assert (EF : forall up low, In up ["MAXITER"; "maxiter"; "ABSTOL"; "abstol"; "RELTOL"; "reltol"; "VERBOSE"; "verbose"; "SIGMA"; "sigma"; "PERMUT"; "permut"]%string ->
     In low ["MAXITER"; "maxiter"; "ABSTOL"; "abstol"; "RELTOL"; "reltol"; "VERBOSE"; "verbose"; "SIGMA"; "sigma"; "PERMUT"; "permut"]%string ->
     field (mkMexargs P c e G h o') up low = field (mkMexargs P c e G h o) up low).
  { intros up low H1 H2. unfold field. cbn [ma_opts]. destruct o as [v|], o' as [v'|]; try contradiction; auto. rewrite !E6 by auto. reflexivity. }
  assert (EP : permutation_option A trunc (mkMexargs P c e G h o') = permutation_option A trunc (mkMexargs P c e G h o)).
  { unfold permutation_option. rewrite EF by (cbn; auto 20). reflexivity. }
  assert (EO : forall s, set_options A trunc (mkMexargs P c e G h o') s = set_options A trunc (mkMexargs P c e G h o) s).
  { intros s. unfold set_options. rewrite !EF by (cbn; auto 20). reflexivity. }
  rewrite EP. unfold checks, dim_p. cbn [ma_P ma_c ma_eq ma_G ma_h].
  destruct (nlhs =? 0); auto. destruct ((nlhs <? 0) || (3 <? nlhs)); auto. destruct (negb _); auto.
  destruct (permutation_option A trunc (mkMexargs P c e G h o)) as [[perm|]| |]; cbn [bind]; auto.
  match goal with |- (q <- ?m ;; _) = _ => destruct m as [q| |]; cbn [bind]; auto end. rewrite EO. reflexivity.
Qed.
End Matlab.
Print Assumptions C49_shapes.
Print Assumptions C49_errors.
Print Assumptions C50_settings.
Print Assumptions C50_out_of_range.
Print Assumptions C50_errors.
Print Assumptions C51_runs.
Print Assumptions C51_fval_uninitialised.
Print Assumptions C52_errors.
Print Assumptions C52_other_fields.

(** ** IEEE doubles *)

Lemma ofZ_exact z : Z.abs z < 2 ^ 53 -> is_finite (b64_ofZ z) = true /\ B2R (b64_ofZ z) = IZR z.
Proof.
  intros Hz. unfold b64_ofZ. pose proof (binary_normalize_correct 53 1024 prec64 emax64 mode_NE z 0 false) as H.
  assert (E : @F2R radix2 {| Fnum := z; Fexp := 0 |} = IZR z) by (unfold F2R; cbn; ring).
  rewrite E in H. cbn [round_mode] in H.
  assert (F64 : Valid_exp (SpecFloat.fexp 53 1024)) by (apply FLT_exp_valid; reflexivity).
  assert (G : generic_format radix2 (SpecFloat.fexp 53 1024) (IZR z)).
  { apply (generic_format_FLT radix2 (-1074) 53). exists (Float radix2 z 0); [symmetry; exact E|exact Hz|cbn; lia]. }
  rewrite (round_generic radix2 (SpecFloat.fexp 53 1024) ZnearestE _ G) in H.
  rewrite Rlt_bool_true in H.
  - destruct H as [H1 [H2 _]]. auto.
  - rewrite <- abs_IZR. apply Rlt_trans with (IZR (2 ^ 53)); [apply IZR_lt; exact Hz|].
    change (IZR (2 ^ 53)) with (bpow radix2 53). apply bpow_lt. lia.
Qed.

(** The conversion of a finite double that fits is the truncation of its value. *)
Lemma trunc_FA_ok (x : b64) : is_finite x = true -> (Rabs (B2R x) < IZR (2 ^ 63))%R -> trunc_FA x = Ok (Ztrunc (B2R x)).
Proof.
  intros Fx Hx. unfold trunc_FA. rewrite Fx.
  assert (E : Btrunc x = Ztrunc (B2R x)).
  { apply eq_IZR. rewrite Btrunc_correct by exact emax64. unfold round, F2R, scaled_mantissa, cexp, FIX_exp. cbn. rewrite !Rmult_1_r. reflexivity. }
  rewrite E. unfold to_long. apply Rabs_def2 in Hx. destruct Hx as [H1 H2].
  assert (B : - 2 ^ 63 <= Ztrunc (B2R x) < 2 ^ 63).
  { split.
    - apply le_IZR. apply Rle_trans with (IZR (Ztrunc (IZR (- 2 ^ 63)))); [rewrite Ztrunc_IZR; apply Rle_refl|]. apply IZR_le. apply Ztrunc_le. rewrite opp_IZR. lra.
    - destruct (Rle_or_lt 0 (B2R x)) as [Hp|Hn].
      + rewrite Ztrunc_floor by auto. apply lt_IZR. eapply Rle_lt_trans; [apply Zfloor_lb|]. exact H1.
      + rewrite Ztrunc_ceil by lra. apply Z.le_lt_trans with 0; [|reflexivity]. apply Zceil_glb. lra. }
  destruct (Z.leb_spec (- 2 ^ 63) (Ztrunc (B2R x))); [|lia]. destruct (Z.ltb_spec (Ztrunc (B2R x)) (2 ^ 63)); [|lia]. reflexivity.
Qed.

(** A MAXITER that is a number and in range: the limit is its integer part. *)
Theorem C50_maxiter_binary64 (x : b64) : is_nan x = false -> ~ below FA x 0 -> ~ above FA x 200 ->
  exists k, trunc_FA x = Ok k /\ 0 <= k <= 200 /\ (IZR k <= B2R x < IZR k + 1)%R.
Proof.
  unfold below, above. cbn [flt FA fofZ]. intros HN HB HA.
  assert (Fx : is_finite x = true).
  { destruct x as [s|s| |s mx ex Hx]; auto; try discriminate. exfalso. destruct s; [apply HB|apply HA]; reflexivity. }
  destruct (ofZ_exact 0 ltac:(cbn; lia)) as [F0 R0]. destruct (ofZ_exact 200 ltac:(cbn; lia)) as [F2 R2].
  rewrite Bltb_correct in HB by auto. rewrite Bltb_correct in HA by auto. rewrite R0 in HB. rewrite R2 in HA.
  assert (B : (0 <= B2R x <= 200)%R).
  { split; apply Rnot_lt_le; intros H; [apply HB|apply HA]; apply Rlt_bool_true; exact H. }
  exists (Ztrunc (B2R x)). rewrite trunc_FA_ok; auto.
  2:{ rewrite Rabs_pos_eq by apply B. eapply Rle_lt_trans; [apply B|]. apply IZR_lt. reflexivity. }
  rewrite Ztrunc_floor by apply B. split; auto. split; [split|].
  - apply Zfloor_lub. apply B.
  - apply le_IZR. eapply Rle_trans; [apply Zfloor_lb|apply B].
  - split; [apply Zfloor_lb|apply Zfloor_ub].
Qed.
Print Assumptions C50_maxiter_binary64.

(** One less than an integer double. *)
Lemma less_one (x : b64) k : is_finite x = true -> B2R x = IZR k -> Z.abs k < 2 ^ 52 -> trunc_FA (fsub FA x (fofZ FA 1)) = Ok (k - 1).
Proof.
  intros Fx Ex Hk. cbn [fsub FA fofZ]. destruct (ofZ_exact 1 ltac:(cbn; lia)) as [F1 R1].
  pose proof (Bminus_correct 53 1024 prec64 emax64 mode_NE x (b64_ofZ 1) Fx F1) as H. rewrite Ex, R1, <- minus_IZR in H. cbn [round_mode] in H.
  assert (F64 : Valid_exp (SpecFloat.fexp 53 1024)) by (apply FLT_exp_valid; reflexivity).
  assert (E : @F2R radix2 {| Fnum := k - 1; Fexp := 0 |} = IZR (k - 1)) by (unfold F2R; cbn; ring).
  assert (Hz : Z.abs (k - 1) < 2 ^ 53) by lia.
  assert (G : generic_format radix2 (SpecFloat.fexp 53 1024) (IZR (k - 1))).
  { apply (generic_format_FLT radix2 (-1074) 53). exists (Float radix2 (k - 1) 0); [symmetry; exact E|exact Hz|cbn; lia]. }
  rewrite (round_generic radix2 (SpecFloat.fexp 53 1024) ZnearestE _ G) in H.
  assert (B : (Rabs (IZR (k - 1)) < IZR (2 ^ 53))%R) by (rewrite <- abs_IZR; apply IZR_lt; exact Hz).
  rewrite Rlt_bool_true in H.
  - destruct H as [H1 [H2 _]]. rewrite trunc_FA_ok; auto.
    + rewrite H1, Ztrunc_IZR. reflexivity.
    + rewrite H1. eapply Rlt_trans; [exact B|]. apply IZR_lt. reflexivity.
  - eapply Rlt_trans; [exact B|]. change (IZR (2 ^ 53)) with (bpow radix2 53). apply bpow_lt. lia.
Qed.

(** A vector of integers is accepted exactly if it lists 1, ..., N in some order. *)
Definition lists_integers (a : mxarr FA) (N : Z) (k : Z -> Z) : Prop :=
  forall i, 0 <= i < N -> Z.abs (k i) < 2 ^ 52 /\ exists x : b64, rd (mx_pr a) i = Ok x /\ is_finite x = true /\ B2R x = IZR (k i).
Definition one_based_permutation (N : Z) (k : Z -> Z) : Prop :=
  (forall i, 0 <= i < N -> 1 <= k i <= N) /\ (forall i j, 0 <= i < N -> 0 <= j < N -> k i = k j -> i = j).

Theorem C52_integers w N a k : field w "PERMUT" "permut" = Some a -> dense_vector FA a N -> lists_integers a N k ->
  (one_based_permutation N k -> exists P, permutation_of FA trunc_FA w N (Some P) /\ forall i, 0 <= i < N -> rd P i = Ok (k i - 1)) /\
  (~ one_based_permutation N k -> forall perm, ~ permutation_of FA trunc_FA w N perm).
Proof.
  intros Ef HD HI. assert (HN : 0 <= N) by (destruct HD as [_ [_ [_ [H _]]]]; lia). unfold permutation_of. rewrite Ef. split.
  - intros [K1 K2]. set (P := full (map (fun i => k (Z.of_nat i) - 1) (seq 0 (Z.to_nat N)))).
    assert (L : zlen P = N) by (unfold P; rewrite zlen_full; unfold zlen; rewrite map_length, seq_length; lia).
    assert (R : forall i, 0 <= i < N -> rd P i = Ok (k i - 1)).
    { intros i Hi. unfold P. apply rd_full; [|lia]. rewrite nth_error_map, nth_error_nth' with (d := O) by (rewrite seq_length; lia).
      rewrite seq_nth by lia. cbn. do 3 f_equal. lia. }
    exists P. split; auto. split; auto. exists P. split; auto. split; [|split; auto].
    + split.
      * intros i Hi. exists (k i - 1). split; [apply R; auto|]. specialize (K1 i Hi). lia.
      * intros i j v Hi Hj. rewrite !R by auto. intros [= <-] [= H]. apply K2; auto. lia.
    + intros i Hi. destruct (HI i Hi) as [Hk [x [E1 [E2 E3]]]]. exists x, (k i - 1). split; auto. split; [apply less_one; auto|apply R; auto].
  - intros HK perm [_ [P [_ [[Q1 Q2] [L R]]]]]. apply HK.
    assert (R' : forall i, 0 <= i < N -> rd P i = Ok (k i - 1)).
    { intros i Hi. destruct (R i Hi) as [x [z [E1 [E2 E3]]]]. destruct (HI i Hi) as [Hk [x' [E1' [E2' E3']]]].
      rewrite E1' in E1. injection E1 as <-. rewrite (less_one _ _ E2' E3' Hk) in E2. congruence. }
    split.
    + intros i Hi. destruct (Q1 i Hi) as [v [E Hv]]. rewrite R' in E by auto. injection E as <-. lia.
    + intros i j Hi Hj E. apply (Q2 i j (k i - 1)); auto. rewrite R' by auto. congruence.
Qed.
Print Assumptions C52_integers.

(** ** Simulink *)

Section Simulink.
Variable A : Arith.
Notation F := (car A).
Variable ps : F -> Prop.
Hypothesis SF : Safe A ps.

(** The dense call that the block makes: matrices column by column, all sizes taken from the vectors. *)
Definition block_e (iP ic iA ib iG ih : arr F) : dense_user F :=
  mkDense (zlen ic) (zlen ih) (zlen ib) iP (Some iA) iG ic ih (Some ib) None COLUMN_MAJOR_ORDERING.
Definition block (iP ic iG ih : arr F) : dense_user F :=
  mkDense (zlen ic) (zlen ih) 0 iP None iG ic ih None None COLUMN_MAJOR_ORDERING.

(** What both blocks do with the call. *)
Definition run_block (amd : amd_t) (w : dense_user F) : res (blockout A) :=
  q <- dense_setup A amd w ;;
  '(code, q) <- QP_SOLVE A q ;;
  x <- copy A (q_x q) NV ;;
  Ok (mkBlockout x code (IterationCount (q_stats q))).

Lemma block_runs amd w dP dA dG : valid_dense A amd w dP dA dG ->
  exists code q, dense_session A amd w [Solve A] = Ok ([code], q) /\ (code = 0 \/ code = 2) /\
    (exists f, is_vec (q_x q) (d_n w) f) /\
    run_block amd w = (x <- copy A (q_x q) NV ;; Ok (mkBlockout x code (IterationCount (q_stats q)))).
Proof.
  intros HV. destruct (C34_dense_is_sparse A amd _ _ _ _ HV) as [u [SP [VU ES]]].
  destruct (run_once A ps SF amd u (default_settings A) VU) as [q0 [code [q [E0 [Eo [Es [Eq [On Om Op Ox Oy Oz Os Ofv Oc]]]]]]]].
  { right. intros o' [[= <-]|[H|[]]]; [cbn; lia|discriminate]. }
  assert (EX : q0 <| q_options := default_settings A |> = q0) by (rewrite <- Eo; destruct q0; reflexivity). rewrite EX in Es.
  assert (ED : dense_setup A amd w = Ok q0).
  { rewrite <- E0. apply (C34_same_handle A amd _ _ dP dA dG); auto; [apply HV|pose proof (vd_m _ _ _ _ _ _ HV); lia]. }
  exists code, q. split; [|split; [apply Oc; cbn; lia|split]].
  - rewrite ES. unfold session. rewrite E0. cbn [bind run_calls]. rewrite Es. reflexivity.
  - rewrite (sf_n _ _ _ _ _ _ SP) in Ox. exact Ox.
  - unfold run_block. rewrite ED. cbn [bind]. rewrite Es. reflexivity.
Qed.

Lemma copy_first v n f k : is_vec v n f -> 0 <= k <= n -> wp (copy A v k) (lists A v k).
Proof.
  intros [L R] Hk. unfold copy. wb.
  apply (wp_for_le (fun i l => lists A v i (rev l))); auto; try lia.
  - split; [reflexivity|]. intros i Hi. lia.
  - intros i l Hi [H1 H2]. rewrite R by lia. cbn [bind]. wok. cbn [rev]. split; [rewrite zlen_app, H1; reflexivity|].
    intros j Hj. destruct (Z.eq_dec j i) as [->|Hne].
    + exists (f i). split; [apply R; lia|]. rewrite nth_error_app2; unfold zlen in H1; [|lia]. replace (Z.to_nat i - List.length (rev l))%nat with O by lia. reflexivity.
    + destruct (H2 j ltac:(lia)) as [x [E1 E2]]. exists x. split; auto. rewrite nth_error_app1; auto. apply nth_error_Some. congruence.
Qed.

Lemma copy_short v n f : is_vec v n f -> 0 <= n < NV -> copy A v NV = Ub OobRead.
Proof.
  intros [L R] Hn. unfold copy, NV in *. change (for_ 0 3) with (@forN (list F) 3 0). cbn [forN].
  assert (O : rd v n = Ub OobRead).
  { unfold rd. destruct (Z.ltb_spec n 0); [lia|]. rewrite (proj2 (nth_error_None _ _)); auto. unfold zlen in L. lia. }
  assert (H : n = 0 \/ n = 1 \/ n = 2) by lia. destruct H as [-> | [-> | ->]].
  - rewrite O. reflexivity.
  - rewrite R by lia. cbn [bind]. change (0 + 1) with 1. rewrite O. reflexivity.
  - rewrite R by lia. cbn [bind]. change (0 + 1) with 1. rewrite R by lia. cbn [bind]. change (1 + 1) with 2. rewrite O. reflexivity.
Qed.

(** With at least three variables a block solves the problem once, with the default settings, and outputs the first
    three components of the solution ... *)
Definition outputs_first (amd : amd_t) (w : dense_user F) (r : res (blockout A)) : Prop :=
  exists code q out, dense_session A amd w [Solve A] = Ok ([code], q) /\ r = Ok out /\ lists A (q_x q) 3 (bo_x out) /\
    bo_exit out = code /\ bo_iter out = IterationCount (q_stats q) /\ (code = 0 \/ code = 2).

Lemma block_first amd w dP dA dG : valid_dense A amd w dP dA dG -> 3 <= d_n w -> outputs_first amd w (run_block amd w).
Proof.
  intros HV Hn. destruct (block_runs amd w dP dA dG HV) as [code [q [H1 [H2 [[f H3] ->]]]]].
  destruct (proj1 (wp_exists _ _) (copy_first _ _ _ NV H3 ltac:(unfold NV; lia))) as [x [-> Lx]]. cbn [bind].
  exists code, q. eexists. split; [exact H1|]. split; [reflexivity|]. cbn [bo_x bo_exit bo_iter]. auto.
Qed.
Lemma block_short amd w dP dA dG : valid_dense A amd w dP dA dG -> d_n w < 3 -> run_block amd w = Ub OobRead.
Proof.
  intros HV Hn. destruct (block_runs amd w dP dA dG HV) as [code [q [H1 [H2 [[f H3] ->]]]]]. rewrite (copy_short _ _ _ H3); [reflexivity|].
  pose proof (vd_n _ _ _ _ _ _ HV). unfold NV. lia.
Qed.

Theorem C53_block_e amd iP ic iA ib iG ih dP dA dG : valid_dense A amd (block_e iP ic iA ib iG ih) dP dA dG -> 3 <= zlen ic ->
  outputs_first amd (block_e iP ic iA ib iG ih) (mdlOutputs_e A amd iP ic iA ib iG ih).
Proof. intros HV Hn. exact (block_first amd _ _ _ _ HV Hn). Qed.
Theorem C53_block amd iP ic iG ih dP dA dG : valid_dense A amd (block iP ic iG ih) dP dA dG -> 3 <= zlen ic ->
  outputs_first amd (block iP ic iG ih) (mdlOutputs A amd iP ic iG ih).
Proof. intros HV Hn. exact (block_first amd _ _ _ _ HV Hn). Qed.

(** ... with fewer it reads outside the solution. *)
Theorem C53_too_few_e amd iP ic iA ib iG ih dP dA dG : valid_dense A amd (block_e iP ic iA ib iG ih) dP dA dG -> zlen ic < 3 ->
  mdlOutputs_e A amd iP ic iA ib iG ih = Ub OobRead.
Proof. intros HV Hn. exact (block_short amd _ _ _ _ HV Hn). Qed.
Theorem C53_too_few amd iP ic iG ih dP dA dG : valid_dense A amd (block iP ic iG ih) dP dA dG -> zlen ic < 3 ->
  mdlOutputs A amd iP ic iG ih = Ub OobRead.
Proof. intros HV Hn. exact (block_short amd _ _ _ _ HV Hn). Qed.
End Simulink.
Print Assumptions C53_block_e.
Print Assumptions C53_block.
Print Assumptions C53_too_few_e.
Print Assumptions C53_too_few.

(** ** Cases *)

Definition sp (A : Arith) (r c : Z) (jc ir pr : list Z) : mxarr A := mkMx true true false r c (fs A pr) (zs ir) (zs jc).
Definition dv (A : Arith) (pr : arr (car A)) : mxarr A := mkMx true false false (zlen pr) 1 pr [] [].
Definition arg {A} (a : mxarr A) : mxval A := mkVal a (fun _ => None).
Fixpoint struct {A} (l : list (string * mxarr A)) (k : string) : option (mxarr A) :=
  match l with [] => None | (k', a) :: l => if String.eqb k k' then Some a else struct l k end.

(** The problem of [demo] with options. *)
Definition demo_args (A : Arith) (l : list (string * mxarr A)) : mexargs A :=
  mkMexargs (sp A 3 3 [0; 2; 5; 7] [0; 1; 0; 1; 2; 1; 2] [5; 1; 1; 2; 1; 1; 4]) (dv A (fs A [1; 2; 1]))
    (Some (sp A 1 3 [0; 1; 2; 3] [0; 0; 0] [1; -2; 1], dv A (fs A [3]))) (sp A 2 3 [0; 1; 2; 3] [0; 0; 1] [-4; -4; -1]) (dv A (fs A [-1; -1]))
    (Some (mkVal (mkMx false false false 1 1 [] [] []) (struct l))).
Definition demo_call (A : Arith) (l : list (string * mxarr A)) : list (mxval A) :=
  let w := demo_args A l in
  [arg (ma_P w); arg (ma_c w)] ++ match ma_eq w with Some (a, b) => [arg a; arg b] | None => [] end ++ [arg (ma_G w); arg (ma_h w)] ++
  match ma_opts w with Some o => [o] | None => [] end.
Definition demo_perm (A : Arith) : string * mxarr A := ("PERMUT"%string, dv A (fs A [6; 3; 4; 2; 5; 1])).

Lemma demo_documented A l : documented A (demo_call A l) (demo_args A l).
Proof. eexists (firstn 6 (demo_call A l)). split; reflexivity. Qed.
Lemma demo_shapes A l : mex_shapes A (demo_args A l) 3 2 1.
Proof. unfold mex_shapes, sparse_matrix, dense_vector. cbn. repeat split; auto; lia. Qed.
Lemma demo_user A l : user_of A (demo_args A l) 3 2 1 (Some (zs [5; 2; 3; 1; 4; 0])) = demo A.
Proof. reflexivity. Qed.
Lemma demo_permuted l : struct l "PERMUT"%string = Some (snd (demo_perm FA)) ->
  permutation_of FA trunc_FA (demo_args FA l) 6 (Some (zs [5; 2; 3; 1; 4; 0])).
Proof.
  intros E. destruct (C52_integers (demo_args FA l) 6 (snd (demo_perm FA)) (fun i => nth (Z.to_nat i) [6; 3; 4; 2; 5; 1] 0)) as [H _].
  - unfold field, demo_args. cbn [ma_opts v_field]. rewrite E. reflexivity.
  - unfold dense_vector. cbn. repeat split; auto; lia.
  - intros i Hi. enum i; (split; [reflexivity|]); eexists; (split; [reflexivity|]); apply ofZ_exact; reflexivity.
  - assert (K : one_based_permutation 6 (fun i => nth (Z.to_nat i) [6; 3; 4; 2; 5; 1] 0)).
    { split; [intros i Hi; enum i; vm_compute; split; discriminate|].
      intros i j Hi Hj K. enum i; enum j; try reflexivity; vm_compute in K; discriminate K. }
    destruct (H K) as [P [HP R]].
    assert (L : zlen P = 6).
    { unfold permutation_of in HP. destruct (field _ _ _); [|discriminate HP]. destruct HP as [_ [P' [EP [_ [L _]]]]]. injection EP as <-. exact L. }
    replace (zs [5; 2; 3; 1; 4; 0]) with P; auto. apply arr_ext; [exact L|].
    intros i Hi. rewrite L in Hi. eexists. split; [apply R; auto|]. enum i; reflexivity.
Qed.

(** Defaults: all hypotheses of [C51_runs] hold, for one, two and three outputs. *)
Example C51_case amd : let w := demo_args FA [demo_perm FA] in
  documented FA (demo_call FA [demo_perm FA]) w /\ mex_shapes FA w 3 2 1 /\
  permutation_of FA trunc_FA w 6 (Some (zs [5; 2; 3; 1; 4; 0])) /\ settings_of FA trunc_FA w (default_settings FA) /\
  valid_user amd (user_of FA w 3 2 1 (Some (zs [5; 2; 3; 1; 4; 0]))) /\ 1 <= maxit (default_settings FA).
Proof.
  cbv zeta. split; [apply demo_documented|]. split; [apply demo_shapes|]. split; [apply demo_permuted; reflexivity|].
  split; [|split; [rewrite demo_user; apply demo_valid|cbn; lia]].
  apply C50_settings. reflexivity.
Qed.

Definition nan : car FA := B754_nan.
Definition half_more (k : Z) : car FA := b64_div (b64_ofZ (2 * k + 1)) (b64_ofZ 2).

(** A tolerance that is not between 0 and 1 is accepted. *)
Theorem C50_tolerance_range_refuted : exists prhs w x, documented FA prhs w /\ option_is FA w "ABSTOL" "abstol" x /\
  ~ (fle FA (fofZ FA 0) x = true /\ fle FA x (fofZ FA 1) = true) /\ forall amd, exists r, mexFunction FA trunc_FA amd 2 prhs = Ok (Outputs r).
Proof.
  set (l := [demo_perm FA; ("ABSTOL", dv FA [Some nan])]%string).
  exists (demo_call FA l), (demo_args FA l), nan. split; [apply demo_documented|]. split; [eexists; split; reflexivity|].
  split; [intros [H _]; discriminate H|]. intros amd.
  destruct (C51_runs FA trunc_FA _ (Safe_total FA FA_total) amd 2 (demo_call FA l) (demo_args FA l) 3 2 1 (Some (zs [5; 2; 3; 1; 4; 0]))
    ((default_settings FA) <| abstol := nan |>)) as [code [q [r [_ [H _]]]]].
  - lia.
  - apply demo_documented.
  - apply demo_shapes.
  - apply demo_permuted. reflexivity.
  - apply C50_settings. reflexivity.
  - rewrite demo_user. apply demo_valid.
  - left. lia.
  - lia.
  - eauto.
Qed.
Print Assumptions C50_tolerance_range_refuted.

(** A NaN as iteration limit passes the check and its conversion to an integer is undefined. *)
Theorem C50_maxiter_defined_refuted : exists prhs w n m p perm x, documented FA prhs w /\ mex_shapes FA w n m p /\ permutation_of FA trunc_FA w (n + m + p) perm /\
  (forall amd, valid_user amd (user_of FA w n m p perm)) /\ option_is FA w "MAXITER" "maxiter" x /\
  forall amd, mexFunction FA trunc_FA amd 1 prhs = Ub Undef.
Proof.
  set (l := [demo_perm FA; ("MAXITER", dv FA [Some nan])]%string).
  exists (demo_call FA l), (demo_args FA l), 3, 2, 1, (Some (zs [5; 2; 3; 1; 4; 0])), nan.
  assert (HP : permutation_of FA trunc_FA (demo_args FA l) 6 (Some (zs [5; 2; 3; 1; 4; 0]))) by (apply demo_permuted; reflexivity).
  split; [apply demo_documented|]. split; [apply demo_shapes|]. split; [exact HP|].
  split; [intros amd; rewrite demo_user; apply demo_valid|]. split; [eexists; split; reflexivity|]. intros amd.
  rewrite (mex_unfold FA trunc_FA amd 1 _ _ 3 2 1 _ ltac:(lia) (demo_documented FA l) (demo_shapes FA l) (permutation_chosen FA trunc_FA _ 3 2 1 _ (demo_shapes FA l) HP)).
  rewrite demo_user.
  destruct (run_once FA _ (Safe_total FA FA_total) amd (demo FA) (default_settings FA) (demo_valid FA amd)) as [q0 [code [q [-> [E _]]]]]; [left; discriminate|].
  cbn [bind]. rewrite E. reflexivity.
Qed.
Print Assumptions C50_maxiter_defined_refuted.

(** MAXITER = 0 and three outputs. *)
Theorem C51_fval_defined_refuted : exists prhs w n m p perm x, documented FA prhs w /\ mex_shapes FA w n m p /\ permutation_of FA trunc_FA w (n + m + p) perm /\
  (forall amd, valid_user amd (user_of FA w n m p perm)) /\ option_is FA w "MAXITER" "maxiter" x /\ ~ below FA x 0 /\ ~ above FA x 200 /\
  forall amd, mexFunction FA trunc_FA amd 3 prhs = Ub Uninit.
Proof.
  set (l := [demo_perm FA; ("MAXITER", dv FA (fs FA [0]))]%string).
  exists (demo_call FA l), (demo_args FA l), 3, 2, 1, (Some (zs [5; 2; 3; 1; 4; 0])), (fofZ FA 0).
  assert (HP : permutation_of FA trunc_FA (demo_args FA l) 6 (Some (zs [5; 2; 3; 1; 4; 0]))) by (apply demo_permuted; reflexivity).
  split; [apply demo_documented|]. split; [apply demo_shapes|]. split; [exact HP|].
  split; [intros amd; rewrite demo_user; apply demo_valid|]. split; [eexists; split; reflexivity|].
  split; [discriminate|]. split; [discriminate|]. intros amd.
  apply (C51_fval_uninitialised FA trunc_FA _ (Safe_total FA FA_total) amd _ _ 3 2 1 _ ((default_settings FA) <| maxit := 0 |>) (demo_documented FA l) (demo_shapes FA l) HP).
  - apply C50_settings. reflexivity.
  - rewrite demo_user. apply demo_valid.
  - left. lia.
  - cbn. lia.
Qed.
Print Assumptions C51_fval_defined_refuted.

Lemma demo_array : permutation_array (zs [5; 2; 3; 1; 4; 0]) 6.
Proof. perm_concrete. Qed.

Definition halves : list Z := [6; 3; 4; 2; 5; 1].
Lemma half_less_one k : In k halves -> trunc_FA (fsub FA (half_more k) (fofZ FA 1)) = Ok (k - 1).
Proof. intros H. repeat (destruct H as [<-|H]; [vm_compute; reflexivity|]). destruct H. Qed.
Lemma half_value k : In k halves -> exists mx ex, B2SF (half_more k) = SpecFloat.S754_finite false mx ex /\ ex < 0 /\ Zpos mx * 2 = (2 * k + 1) * 2 ^ (- ex).
Proof. intros H. repeat (destruct H as [<-|H]; [do 2 eexists; vm_compute; repeat split|]). destruct H. Qed.
Lemma half_not_integer k z : In k halves -> (B2R (half_more k) <> IZR z)%R.
Proof.
  intros H. destruct (half_value k H) as [mx [ex [E [Hx E2]]]]. rewrite <- SF2R_B2SF, E. unfold SF2R, F2R. cbn [Fnum Fexp cond_Zopp].
  replace ex with (- (- ex)) by lia. rewrite bpow_opp, <- IZR_Zpower by lia. change (radix_val radix2) with 2.
  assert (PZ : 0 < 2 ^ (- ex)) by (apply Z.pow_pos_nonneg; lia). assert (P : (0 < IZR (2 ^ (- ex)))%R) by (apply IZR_lt; exact PZ).
  intros K. assert (EZ : (IZR (Zpos mx) = IZR (z * 2 ^ (- ex)))%R) by (rewrite mult_IZR, <- K; field; lra).
  apply eq_IZR in EZ. rewrite EZ in E2. assert (2 * z = 2 * k + 1); [|lia]. apply (Z.mul_cancel_r _ _ (2 ^ (- ex))); lia.
Qed.

(** A vector none of whose entries is an integer is accepted as a permutation. *)
Theorem C52_integers_only_refuted : exists prhs w a perm, documented FA prhs w /\ mex_shapes FA w 3 2 1 /\ field w "PERMUT" "permut" = Some a /\
  (forall i x, 0 <= i < 6 -> rd (mx_pr a) i = Ok x -> forall k, (B2R x <> IZR k)%R) /\ permutation_of FA trunc_FA w 6 perm /\
  forall amd, exists r, mexFunction FA trunc_FA amd 2 prhs = Ok (Outputs r).
Proof.
  set (a := dv FA (map (fun k => Some (half_more k)) halves)).
  set (l := [("permut"%string, a)]).
  assert (HP : permutation_of FA trunc_FA (demo_args FA l) 6 (Some (zs [5; 2; 3; 1; 4; 0]))).
  { unfold permutation_of. change (field (demo_args FA l) "PERMUT" "permut") with (Some a). split; [unfold dense_vector; cbn; repeat split; auto; lia|].
    eexists. split; [reflexivity|]. split; [exact demo_array|]. split; [reflexivity|].
    intros i Hi. exists (half_more (nth (Z.to_nat i) halves 0)), (nth (Z.to_nat i) halves 0 - 1).
    split; [enum i; reflexivity|]. split; [apply half_less_one; apply nth_In; cbn; lia|enum i; reflexivity]. }
  exists (demo_call FA l), (demo_args FA l), a, (Some (zs [5; 2; 3; 1; 4; 0])).
  split; [apply demo_documented|]. split; [apply demo_shapes|]. split; [reflexivity|]. split.
  { intros i x Hi E k. assert (R : rd (mx_pr a) i = Ok (half_more (nth (Z.to_nat i) halves 0))) by (enum i; reflexivity).
    rewrite R in E. assert (X : half_more (nth (Z.to_nat i) halves 0) = x) by congruence. rewrite <- X.
    apply half_not_integer. apply nth_In. cbn. lia. }
  split; [exact HP|]. intros amd.
  destruct (C51_runs FA trunc_FA _ (Safe_total FA FA_total) amd 2 (demo_call FA l) (demo_args FA l) 3 2 1 (Some (zs [5; 2; 3; 1; 4; 0]))
    (default_settings FA)) as [code [q [r [_ [H _]]]]].
  - lia.
  - apply demo_documented.
  - apply demo_shapes.
  - exact HP.
  - apply C50_settings. reflexivity.
  - rewrite demo_user. apply demo_valid.
  - left. lia.
  - lia.
  - eauto.
Qed.
Print Assumptions C52_integers_only_refuted.

(** The documented field name "Permut" has no effect, whatever is in the field. *)
Theorem C52_documented_name_refuted : exists a : mxarr FA, ~ dense_vector FA a 6 /\
  forall amd nlhs, mexFunction FA trunc_FA amd nlhs (demo_call FA [("Permut"%string, a)]) = mexFunction FA trunc_FA amd nlhs (demo_call FA []).
Proof.
  exists (dv FA []). split; [intros [_ [_ [_ [_ [[H _]|[H _]]]]]]; discriminate H|]. intros amd nlhs.
  apply (C52_other_fields FA trunc_FA amd nlhs _ _ (demo_args FA []) (demo_args FA [("Permut"%string, dv FA [])])); try apply demo_documented.
  repeat split. cbn [demo_args ma_opts v_field]. intros k Hk. cbn [struct]. destruct (String.eqb_spec k "Permut") as [->|]; auto.
  exfalso. repeat (destruct Hk as [Hk|Hk]; [discriminate Hk|]). destruct Hk.
Qed.
Print Assumptions C52_documented_name_refuted.

(** A number out of range, a vector that is not a permutation, wrong shapes. *)
Example C50_case : let w := demo_args FA [demo_perm FA; ("MAXITER", dv FA (fs FA [201]))]%string in options_readable FA trunc_FA w /\ out_of_range FA w.
Proof.
  cbv zeta. split.
  - split; [|split].
    + intros up low H. repeat (destruct H as [H|H]; [injection H as <- <-; intros H'; try (destruct H'; reflexivity); eexists; eexists; split; reflexivity|]). destruct H.
    + intros x [a [[= <-] [= <-]]]. eexists. vm_compute. reflexivity.
    + intros x [a [H _]]. discriminate H.
  - left. eexists. split; [eexists; split; reflexivity|]. right. reflexivity.
Qed.
Example C52_case : let w := demo_args FA [("PERMUT"%string, dv FA (fs FA [6; 3; 4; 2; 5; 5]))] in forall perm, ~ permutation_of FA trunc_FA w 6 perm.
Proof.
  cbv zeta. destruct (C52_integers (demo_args FA [("PERMUT"%string, dv FA (fs FA [6; 3; 4; 2; 5; 5]))]) 6 (dv FA (fs FA [6; 3; 4; 2; 5; 5]))
    (fun i => nth (Z.to_nat i) [6; 3; 4; 2; 5; 5] 0)) as [_ H]; [reflexivity|unfold dense_vector; cbn; repeat split; auto; lia| |].
  - intros i Hi. enum i; (split; [reflexivity|]); eexists; (split; [reflexivity|]); apply ofZ_exact; reflexivity.
  - apply H. intros [_ K]. specialize (K 4 5 ltac:(lia) ltac:(lia) eq_refl). lia.
Qed.
Example C49_case : ~ exists w n m p, documented FA [arg (dv FA []); arg (dv FA []); arg (dv FA []); arg (dv FA [])] w /\ mex_shapes FA w n m p.
Proof.
  intros [w [n [m [p [HD HS]]]]]. apply parse_ok in HD. injection HD as <-. destruct HS as [[_ [H _]] _]. discriminate H.
Qed.

(** A block with three variables and one with a single one. *)
Example C53_case : valid_dense FA amd_id (block_e FA (fs FA [5; 1; 0; 1; 2; 1; 0; 1; 4]) (fs FA [1; 2; 1]) (fs FA [1; -2; 1]) (fs FA [3]) (fs FA [-4; 0; -4; 0; 0; -1]) (fs FA [-1; -1]))
    (entriesF [[5; 1; 0]; [1; 2; 1]; [0; 1; 4]]) (entriesF [[1; -2; 1]]) (entriesF [[-4; -4; 0]; [0; 0; -1]]).
Proof.
  split.
  - change (d_n _) with 3. lia.
  - change (d_m _) with 2. lia.
  - intros i j Hi Hj. change (d_n _) with 3 in *. enum i; enum j; reflexivity.
  - intros i j Hi Hj. change (d_n _) with 3 in *. change (d_m _) with 2 in *. enum i; enum j; reflexivity.
  - intros a bb E. cbn in E. injection E as <- <-. change (d_p _) with 1. change (d_n _) with 3.
    split; [lia|]. split; [intros i j Hi Hj; enum i; enum j; reflexivity|]. intros i Hi. enum i. eexists. reflexivity.
  - intros i Hi. change (d_n _) with 3 in *. enum i; eexists; reflexivity.
  - intros i Hi. change (d_m _) with 2 in *. enum i; eexists; reflexivity.
  - exists 0, 0. change (d_n _) with 3. split; [lia|]. left. split; [lia|]. vm_compute. reflexivity.
  - cbn [block_e d_perm]. apply amd_id_ok. match goal with |- 0 <= ?x => let v := eval vm_compute in x in change (0 <= v) end. lia.
Qed.

Theorem C53_few_variables_refuted : exists iP ic iG ih : arr (car FA), (exists dP dA dG, valid_dense FA amd_id (block FA iP ic iG ih) dP dA dG) /\
  mdlOutputs FA amd_id iP ic iG ih = Ub OobRead.
Proof.
  exists (fs FA [1]), (fs FA [0]), (fs FA [-1]), (fs FA [-1]).
  assert (V : valid_dense FA amd_id (block FA (fs FA [1]) (fs FA [0]) (fs FA [-1]) (fs FA [-1])) (entriesF [[1]]) (entriesF []) (entriesF [[-1]])).
  { split.
    - change (d_n _) with 1. lia.
    - change (d_m _) with 1. lia.
    - intros i j Hi Hj. change (d_n _) with 1 in *. enum i; enum j; reflexivity.
    - intros i j Hi Hj. change (d_n _) with 1 in *. change (d_m _) with 1 in *. enum i; enum j; reflexivity.
    - intros a bb E. cbn in E. discriminate.
    - intros i Hi. change (d_n _) with 1 in *. enum i; eexists; reflexivity.
    - intros i Hi. change (d_m _) with 1 in *. enum i; eexists; reflexivity.
    - exists 0, 0. change (d_n _) with 1. split; [lia|]. left. split; [lia|]. vm_compute. reflexivity.
    - cbn [block d_perm]. apply amd_id_ok. match goal with |- 0 <= ?x => let v := eval vm_compute in x in change (0 <= v) end. lia. }
  split; [eauto|]. apply (C53_too_few FA _ (Safe_total FA FA_total) amd_id _ _ _ _ _ _ _ V). reflexivity.
Qed.
Print Assumptions C53_few_variables_refuted.
