(** The timer and the Python interface (C39, C40). *)
From Coq Require Import ZArith Reals List Lia Lra Bool.
From Flocq Require Import Core BinarySingleNaN.
From RecordUpdate Require Import RecordUpdate.
From Verif Require Import Res Partial Arith Lists MSparse Csc SemVec MSolver VecOps Iter SafeInst Setup Session Spec SpecLink QpSpec
  Api Demo P5_Session P6_Codes P9_Entry MIface.
Import ListNotations.
Open Scope Z_scope.
Open Scope res_scope.

(** ** C39 *)

(** A reading of the clock, in nanoseconds. *)
Definition valid_ts (t : timespec) : Prop := 0 <= tv_sec t < 2 ^ 63 /\ 0 <= tv_nsec t < 1000000000.
Definition nanos (t : timespec) : Z := tv_sec t * 1000000000 + tv_nsec t.

Theorem C39_difference t0 t1 : valid_ts t0 -> valid_ts t1 ->
  nanos (ts_diff t0 t1) = nanos t1 - nanos t0 /\ 0 <= tv_nsec (ts_diff t0 t1) < 1000000000 /\
  (nanos t0 <= nanos t1 -> 0 <= tv_sec (ts_diff t0 t1) < 2 ^ 63).
Proof.
  unfold valid_ts, nanos, ts_diff. intros [H1 H2] [H3 H4].
  destruct (Z.ltb_spec (tv_nsec t1 - tv_nsec t0) 0); cbn [tv_sec tv_nsec]; lia.
Qed.
Print Assumptions C39_difference.

(** In exact arithmetic the returned value is that difference in seconds. *)
Theorem C39_exact t0 t1 : valid_ts t0 -> valid_ts t1 ->
  toc RA t0 t1 = Ok (IZR (nanos t1 - nanos t0) / 1000000000)%R.
Proof.
  intros V0 V1. destruct (C39_difference t0 t1 V0 V1) as [E _]. rewrite <- E. unfold toc, nanos. cbn [fdiv fofZ fadd RA].
  destruct (Req_EM_T _ _) as [E'|E']; [exfalso; revert E'; apply IZR_neq; lia|]. cbn [bind]. f_equal.
  rewrite plus_IZR, mult_IZR. field.
Qed.
Print Assumptions C39_exact.

Lemma ofZ_correct z : 0 <= z <= 2 ^ 63 -> is_finite (b64_ofZ z) = true /\
  B2R (b64_ofZ z) = round radix2 (SpecFloat.fexp 53 1024) ZnearestE (IZR z) /\ (0 <= B2R (b64_ofZ z) <= IZR (2 ^ 63))%R.
Proof.
  intros Hz. unfold b64_ofZ. pose proof (binary_normalize_correct 53 1024 prec64 emax64 mode_NE z 0 false) as H.
  assert (E : @F2R radix2 {| Fnum := z; Fexp := 0 |} = IZR z) by (unfold F2R; cbn; ring).
  rewrite E in H. cbn [round_mode] in H.
  set (r := round radix2 (SpecFloat.fexp 53 1024) ZnearestE (IZR z)) in *.
  assert (F64 : Valid_exp (SpecFloat.fexp 53 1024)) by (apply FLT_exp_valid; reflexivity).
  assert (B : (0 <= r <= IZR (2 ^ 63))%R).
  { split.
    - apply round_ge_generic; auto with typeclass_instances. apply generic_format_0. apply IZR_le. lia.
    - apply round_le_generic; auto with typeclass_instances; [|apply IZR_le; lia].
      change (IZR (2 ^ 63)) with (bpow radix2 63). apply generic_format_bpow. vm_compute; discriminate. }
  rewrite Rlt_bool_true in H.
  - destruct H as [H1 [H2 _]]. rewrite H1. auto.
  - rewrite Rabs_pos_eq by apply B. eapply Rle_lt_trans; [apply B|]. change (IZR (2 ^ 63)) with (bpow radix2 63). apply bpow_lt. lia.
Qed.

(** In IEEE doubles it is never negative, infinite or NaN. *)
Theorem C39_nonnegative t0 t1 : valid_ts t0 -> valid_ts t1 -> nanos t0 <= nanos t1 ->
  exists x, toc FA t0 t1 = Ok x /\ is_finite x = true /\ (0 <= B2R x)%R.
Proof.
  intros V0 V1 Hm. destruct (C39_difference t0 t1 V0 V1) as [_ [Hns Hs]]. specialize (Hs Hm).
  unfold toc. cbn [fdiv fofZ fadd FA bind]. set (d := ts_diff t0 t1) in *. eexists. split; [reflexivity|].
  destruct (ofZ_correct (tv_nsec d) ltac:(lia)) as [F1 [E1 B1]].
  destruct (ofZ_correct 1000000000 ltac:(lia)) as [F2 [E2 B2]].
  destruct (ofZ_correct (tv_sec d) ltac:(lia)) as [F3 [E3 B3]].
  assert (F64 : Valid_exp (SpecFloat.fexp 53 1024)) by (apply FLT_exp_valid; reflexivity).
  assert (G2 : B2R (b64_ofZ 1000000000) = 1000000000%R).
  { rewrite <- SF2R_B2SF. replace (B2SF (b64_ofZ 1000000000)) with (SpecFloat.S754_finite false 8388608000000000 (-23)) by (vm_compute; reflexivity).
    unfold SF2R, F2R. cbn [Fnum Fexp cond_Zopp]. change (bpow radix2 (-23)) with (/ 8388608)%R. lra. }
  pose proof (Bdiv_correct 53 1024 prec64 emax64 mode_NE (b64_ofZ (tv_nsec d)) (b64_ofZ 1000000000)) as HD.
  rewrite G2 in HD. specialize (HD ltac:(lra)). cbn [round_mode] in HD.
  set (q := round radix2 (SpecFloat.fexp 53 1024) ZnearestE (B2R (b64_ofZ (tv_nsec d)) / 1000000000)) in *.
  assert (Bq : (0 <= q <= IZR (2 ^ 63))%R).
  { unfold q. split.
    - apply round_ge_generic; auto with typeclass_instances. apply generic_format_0. apply Rmult_le_pos; lra.
    - apply round_le_generic; auto with typeclass_instances.
      + change (IZR (2 ^ 63)) with (bpow radix2 63). apply generic_format_bpow. vm_compute; discriminate.
      + apply Rle_trans with (B2R (b64_ofZ (tv_nsec d))); [|lra]. unfold Rdiv. rewrite <- (Rmult_1_r (B2R (b64_ofZ (tv_nsec d)))) at 2. apply Rmult_le_compat_l; lra. }
  rewrite Rlt_bool_true in HD.
  2:{ rewrite Rabs_pos_eq by apply Bq. eapply Rle_lt_trans; [apply Bq|]. change (IZR (2 ^ 63)) with (bpow radix2 63). apply bpow_lt. lia. }
  destruct HD as [HD1 [HD2 _]]. rewrite F1 in HD2.
  pose proof (Bplus_correct 53 1024 prec64 emax64 mode_NE (b64_ofZ (tv_sec d)) (b64_div (b64_ofZ (tv_nsec d)) (b64_ofZ 1000000000)) F3 HD2) as HP.
  unfold b64_div in HP. rewrite HD1 in HP. cbn [round_mode] in HP.
  set (p := round radix2 (SpecFloat.fexp 53 1024) ZnearestE (B2R (b64_ofZ (tv_sec d)) + q)) in *.
  assert (Bp : (0 <= p <= bpow radix2 64)%R).
  { unfold p. split.
    - apply round_ge_generic; auto with typeclass_instances. apply generic_format_0. lra.
    - apply round_le_generic; auto with typeclass_instances.
      + apply generic_format_bpow. vm_compute; discriminate.
      + change (bpow radix2 64) with (IZR (2 ^ 64)). replace (IZR (2 ^ 64)) with (2 * IZR (2 ^ 63))%R by (rewrite <- mult_IZR; reflexivity). lra. }
  rewrite Rlt_bool_true in HP.
  2:{ rewrite Rabs_pos_eq by apply Bp. eapply Rle_lt_trans; [apply Bp|]. apply bpow_lt. lia. }
  destruct HP as [HP1 [HP2 _]]. split; [exact HP2|]. unfold b64_div. rewrite HP1. apply Bp.
Qed.
Print Assumptions C39_nonnegative.

Example C39_case : valid_ts (mkTs 7 999999999) /\ valid_ts (mkTs 8 1) /\ nanos (mkTs 7 999999999) <= nanos (mkTs 8 1) /\
  ts_diff (mkTs 7 999999999) (mkTs 8 1) = mkTs 0 2.
Proof. unfold valid_ts, nanos. cbn. split; [lia|]. split; [lia|]. split; [lia|reflexivity]. Qed.

(** ** C40 *)

Section Python.
Variable A : Arith.
Notation F := (car A).

(** The documented range of each option. *)
Inductive option_ok : key -> pyobj A -> Prop :=
| ok_maxiter z : 0 < z < 200 -> option_ok K_MAXITER (PyInt z)
| ok_abstol x : flt A (fofZ A 0) x = true -> flt A x (fofZ A 1) = true -> option_ok K_ABSTOL (PyFloat x)
| ok_reltol x : flt A (fofZ A 0) x = true -> flt A x (fofZ A 1) = true -> option_ok K_RELTOL (PyFloat x)
| ok_sigma x : flt A (fofZ A 0) x = true -> option_ok K_SIGMA (PyFloat x)
| ok_verbose z : 0 <= z < 2 ^ 63 -> option_ok K_VERBOSE (PyInt z)
| ok_output v : option_ok K_OUTPUT v.

Definition options_ok (d : option (pydict A)) : Prop := forall d' k v, d = Some d' -> d' k = Some v -> option_ok k v.

(** The settings a dictionary asks for. *)
Definition int_of (d : option (pydict A)) (k : key) (default : Z) : Z :=
  match d with Some d => match d k with Some (PyInt z) => z | _ => default end | None => default end.
Definition float_of (d : option (pydict A)) (k : key) (default : F) : F :=
  match d with Some d => match d k with Some (PyFloat x) => x | _ => default end | None => default end.
Definition wanted (d : option (pydict A)) : settings F :=
  mkSettings (int_of d K_MAXITER 100) (float_of d K_RELTOL (fdec A 1 1000000)) (float_of d K_ABSTOL (fdec A 1 1000000))
    (float_of d K_SIGMA (fofZ A 100)) (int_of d K_VERBOSE 0).

Lemma AsLong_range z : 0 <= AsLong z -> AsLong z = z /\ z < 2 ^ 63.
Proof. unfold AsLong. destruct (Z.leb_spec (- 2 ^ 63) z); cbn [andb]; [destruct (Z.ltb_spec z (2 ^ 63)); cbn [andb]|]; lia. Qed.
Lemma AsLong_id z : 0 <= z < 2 ^ 63 -> AsLong z = z.
Proof. intros H. unfold AsLong. destruct (Z.leb_spec (- 2 ^ 63) z); cbn [andb]; [|lia]. destruct (Z.ltb_spec z (2 ^ 63)); lia. Qed.

(** The options are accepted exactly if all are in range, with the values given. *)
Theorem C40_options d :
  (options_ok d -> exists output, check_options A d = Accept (wanted d) output) /\
  (~ options_ok d -> check_options A d = Raise).
Proof.
  destruct d as [d|].
  2:{ split; [intros _; eexists; reflexivity|]. intros H. destruct H. intros d k v E. discriminate. }
  assert (OI : forall k g f o def, (forall z, g (AsLong z) = true <-> option_ok k (PyInt z)) -> (forall z, option_ok k (PyInt z) -> AsLong z = z) ->
    (forall v, option_ok k v -> exists z, v = PyInt z) -> f def o = o ->
    ((forall v, d k = Some v -> option_ok k v) /\ opt_int A d k g f o = Some (f (int_of (Some d) k def) o)) \/
    (~ (forall v, d k = Some v -> option_ok k v) /\ opt_int A d k g f o = None)).
  { intros k g f o def H1 H2 H3 H4. unfold opt_int, int_of. destruct (d k) as [[z|x|]|]; cbn.
    - destruct (g (AsLong z)) eqn:E.
      + apply H1 in E. left. split; [intros v [= <-]; auto|]. rewrite (H2 z E). reflexivity.
      + right. split; auto. intros H. specialize (H _ eq_refl). apply H1 in H. congruence.
    - right. split; auto. intros H. destruct (H3 _ (H _ eq_refl)). discriminate.
    - right. split; auto. intros H. destruct (H3 _ (H _ eq_refl)). discriminate.
    - left. split; [discriminate|congruence]. }
  assert (OF : forall k g f o def, (forall x, g x = true <-> option_ok k (PyFloat x)) ->
    (forall v, option_ok k v -> exists x, v = PyFloat x) -> f def o = o ->
    ((forall v, d k = Some v -> option_ok k v) /\ opt_float A d k g f o = Some (f (float_of (Some d) k def) o)) \/
    (~ (forall v, d k = Some v -> option_ok k v) /\ opt_float A d k g f o = None)).
  { intros k g f o def H1 H3 H4. unfold opt_float, float_of. destruct (d k) as [[z|x|]|]; cbn.
    - right. split; auto. intros H. destruct (H3 _ (H _ eq_refl)). discriminate.
    - destruct (g x) eqn:E.
      + apply H1 in E. left. split; [intros v [= <-]; auto|]. reflexivity.
      + right. split; auto. intros H. specialize (H _ eq_refl). apply H1 in H. congruence.
    - right. split; auto. intros H. destruct (H3 _ (H _ eq_refl)). discriminate.
    - left. split; [discriminate|congruence]. }
  assert (BAD : forall k, ~ (forall v, d k = Some v -> option_ok k v) -> ~ options_ok (Some d)).
  { intros k H HO. apply H. intros v Hv. apply (HO d k v eq_refl Hv). }
  unfold check_options.
  assert (IN : forall z, (AsLong z <? 200) && (0 <? AsLong z) = true <-> option_ok K_MAXITER (PyInt z)).
  { intros z. rewrite andb_true_iff, Z.ltb_lt, Z.ltb_lt. split.
    - intros [H1 H2]. destruct (AsLong_range z ltac:(lia)). constructor. lia.
    - intros H. inversion H; subst. rewrite AsLong_id; lia. }
  assert (IV : forall z, (0 <=? AsLong z) = true <-> option_ok K_VERBOSE (PyInt z)).
  { intros z. rewrite Z.leb_le. split.
    - intros H1. destruct (AsLong_range z H1). constructor. lia.
    - intros H. inversion H; subst. rewrite AsLong_id; lia. }
  assert (T1 : forall x, flt A x (one A) && flt A (zero A) x = true <-> option_ok K_ABSTOL (PyFloat x)).
  { intros x. rewrite andb_true_iff. unfold one, zero. split; [intros [H1 H2]; constructor; auto|]. intros H; inversion H; auto. }
  assert (T2 : forall x, flt A x (one A) && flt A (zero A) x = true <-> option_ok K_RELTOL (PyFloat x)).
  { intros x. rewrite andb_true_iff. unfold one, zero. split; [intros [H1 H2]; constructor; auto|]. intros H; inversion H; auto. }
  assert (T3 : forall x, flt A (zero A) x = true <-> option_ok K_SIGMA (PyFloat x)).
  { intros x. unfold one, zero. split; [intros H1; constructor; auto|]. intros H; inversion H; auto. }
  match goal with |- context [obind (opt_int A d K_MAXITER ?g ?f ?o)] =>
    destruct (OI K_MAXITER g f o 100 IN) as [[G1 ->]|[G1 ->]] end;
    [intros z H; inversion H; subst; apply AsLong_id; lia|intros v H; inversion H; eauto|reflexivity| |split; [intros H; exfalso; revert H; eapply BAD; eauto|reflexivity]].
  cbn [obind].
  match goal with |- context [obind (opt_float A d K_ABSTOL ?g ?f ?o)] =>
    destruct (OF K_ABSTOL g f o (fdec A 1 1000000) T1) as [[G2 ->]|[G2 ->]] end;
    [intros v H; inversion H; eauto|reflexivity| |split; [intros H; exfalso; revert H; eapply BAD; eauto|reflexivity]].
  cbn [obind].
  match goal with |- context [obind (opt_float A d K_RELTOL ?g ?f ?o)] =>
    destruct (OF K_RELTOL g f o (fdec A 1 1000000) T2) as [[G3 ->]|[G3 ->]] end;
    [intros v H; inversion H; eauto|reflexivity| |split; [intros H; exfalso; revert H; eapply BAD; eauto|reflexivity]].
  cbn [obind].
  match goal with |- context [obind (opt_float A d K_SIGMA ?g ?f ?o)] =>
    destruct (OF K_SIGMA g f o (fofZ A 100) T3) as [[G4 ->]|[G4 ->]] end;
    [intros v H; inversion H; eauto|reflexivity| |split; [intros H; exfalso; revert H; eapply BAD; eauto|reflexivity]].
  cbn [obind].
  match goal with |- context [opt_int A d K_VERBOSE ?g ?f ?o] =>
    destruct (OI K_VERBOSE g f o 0 IV) as [[G5 ->]|[G5 ->]] end;
    [intros z H; inversion H; subst; apply AsLong_id; lia|intros v H; inversion H; eauto|reflexivity| |split; [intros H; exfalso; revert H; eapply BAD; eauto|reflexivity]].
  split; [intros _; eexists; reflexivity|]. intros H. destruct H. intros d' k v [= <-] Hv.
  destruct k; auto. constructor.
Qed.

(** The documented shapes: c of length n, h of length m, G m x n, P n x n, and A p x n with b of length p if both are given. *)
Definition vector_of (a : pyarr A) (k : Z) : Prop := pa_float a = true /\ pa_dims a = [k].
Definition matrix_of (a : pyarr A) (r c : Z) : Prop := pa_float a = true /\ pa_dims a = [r; c].
Definition shapes (w : pycall A) (n m p : Z) : Prop :=
  vector_of (py_c w) n /\ vector_of (py_h w) m /\ matrix_of (py_G w) m n /\ matrix_of (py_P w) n n /\
  match py_b w, py_A w with Some b, Some a => vector_of b p /\ matrix_of a p n | _, _ => p = 0 end.

(** No array whose length is read before the checks is zero-dimensional. *)
Definition has_length (w : pycall A) : Prop :=
  pa_dims (py_c w) <> [] /\ pa_dims (py_h w) <> [] /\
  match py_b w, py_A w with Some b, Some _ => pa_dims b <> [] | _, _ => True end.

Lemma has_shape_ok a r c : is_matrix A a = true -> has_shape A a r c = true <-> matrix_of a r c.
Proof.
  unfold is_matrix, has_shape, matrix_of. destruct (pa_float a); [|discriminate]. destruct (pa_dims a) as [|x [|y [|]]]; try discriminate.
  intros _. rewrite andb_true_iff, !Z.eqb_eq. split; [intros [-> ->]; auto|intros [_ [= -> ->]]; auto].
Qed.
Lemma is_vector_ok a k l : pa_dims a = k :: l -> is_vector A a = true <-> vector_of a k.
Proof.
  intros E. unfold is_vector, vector_of. rewrite E. destruct (pa_float a); cbn [andb]; [|split; [discriminate|intros []; discriminate]].
  destruct l; split; auto; try discriminate. intros [_ H]. discriminate.
Qed.

Theorem C40_shapes w : has_length w ->
  (forall n m p, shapes w n m p -> check_arrays A w = Ok (Some (n, m, p))) /\
  ((~ exists n m p, shapes w n m p) -> check_arrays A w = Ok None).
Proof.
  intros [H1 [H2 H3]]. unfold check_arrays, dim0. destruct (pa_dims (py_c w)) as [|n lc] eqn:Ec; [contradiction|].
  destruct (pa_dims (py_h w)) as [|m lh] eqn:Eh; [contradiction|]. cbn [bind].
  assert (EB : exists p, (match py_eqs w with Some (_, b) => match pa_dims b with d :: _ => Ok d | [] => Ub NullPtr end | None => Ok 0 end) = Ok p /\
    forall p', (match py_b w, py_A w with Some b, Some a => vector_of b p' /\ matrix_of a p' n | _, _ => p' = 0 end) <->
      p' = p /\ match py_eqs w with Some (a, b) => is_vector A b && (is_matrix A a && has_shape A a p n) | None => true end = true).
  { unfold py_eqs. destruct (py_b w) as [b|]; [|exists 0; split; [reflexivity|intros p'; tauto]].
    destruct (py_A w) as [a|]; [|exists 0; split; [reflexivity|intros p'; tauto]].
    destruct (pa_dims b) as [|p lb] eqn:Eb; [contradiction|]. exists p. split; auto. intros p'. rewrite !andb_true_iff, (is_vector_ok b p lb Eb).
    split.
    - intros [[Hf Hd] [Hf' Hd']]. rewrite Eb in Hd. injection Hd as -> ->. split; auto. split; [split; auto; rewrite Eb; auto|].
      unfold is_matrix, has_shape. rewrite Hf', Hd'. rewrite !Z.eqb_refl. auto.
    - intros [-> [Hv [Hm Hs]]]. split; auto. apply has_shape_ok; auto. }
  destruct EB as [p [-> EB]]. cbn [bind].
  assert (R : forall n' m' p', shapes w n' m' p' <-> n' = n /\ m' = m /\ p' = p /\
     (is_vector A (py_c w) && (is_vector A (py_h w) && (match py_eqs w with Some (a, b) => is_vector A b && (is_matrix A a && has_shape A a p n) | None => true end
      && (is_matrix A (py_G w) && (has_shape A (py_G w) m n && (is_matrix A (py_P w) && has_shape A (py_P w) n n)))))) = true).
  { intros n' m' p'. unfold shapes. rewrite !andb_true_iff, (is_vector_ok _ _ _ Ec), (is_vector_ok _ _ _ Eh). split.
    - intros [[Hc Ec'] [[Hh Eh'] [[HG EG] [[HP EP] HE]]]]. rewrite Ec in Ec'. injection Ec' as -> ->. rewrite Eh in Eh'. injection Eh' as -> ->.
      apply EB in HE. destruct HE as [-> HE].
      unfold is_matrix, has_shape, vector_of. rewrite Hc, Hh, HG, EG, HP, EP, Ec, Eh, !Z.eqb_refl. auto 15.
    - intros [-> [-> [-> [Hc [Hh [HE [HG [HG' [HP HP']]]]]]]]]. split; auto. split; auto. split; [apply has_shape_ok; auto|]. split; [apply has_shape_ok; auto|].
      apply EB. auto. }
  set (b3 := match py_eqs w with Some (a, b) => _ | None => true end) in *.
  split.
  - intros n' m' p' HS. apply R in HS. destruct HS as [-> [-> [-> HS]]].
    rewrite !andb_true_iff in HS. destruct HS as [-> [-> [-> [-> [-> [-> ->]]]]]]. reflexivity.
  - intros HN. f_equal.
    assert (E : (is_vector A (py_c w) && (is_vector A (py_h w) && (b3 && (is_matrix A (py_G w) && (has_shape A (py_G w) m n && (is_matrix A (py_P w) && has_shape A (py_P w) n n)))))) = false).
    { apply not_true_is_false. intros E. apply HN. exists n, m, p. apply R. auto. }
    destruct (is_vector A (py_c w)); auto. destruct (is_vector A (py_h w)); auto. destruct b3; auto.
    destruct (is_matrix A (py_G w)); auto. destruct (has_shape A (py_G w) m n); auto. destruct (is_matrix A (py_P w)); auto.
    destruct (has_shape A (py_P w) n n); auto. discriminate.
Qed.

(** A call raises exactly if a shape or an option is wrong; it then does not solve.  (In the other case the call is
    the dense session described by [C40_runs].) *)
Theorem C40_raises amd w : has_length w ->
  (~ exists n m p, shapes w n m p) \/ ~ options_ok (py_opts w) -> method_qpSWIFT A amd w = Ok Exception.
Proof.
  intros HL HB. destruct (C40_shapes w HL) as [S1 S2]. unfold method_qpSWIFT.
  assert (EX : check_arrays A w = Ok None \/ exists d, check_arrays A w = Ok d).
  { right. unfold check_arrays, dim0. destruct HL as [H1 [H2 H3]]. unfold py_eqs. destruct (pa_dims (py_c w)); [contradiction|].
    destruct (pa_dims (py_h w)); [contradiction|]. cbn [bind]. destruct (py_b w) as [b|]; [|eexists; reflexivity].
    destruct (py_A w); [|eexists; reflexivity]. destruct (pa_dims b); [contradiction|]. eexists. reflexivity. }
  destruct HB as [HB|HB]; [rewrite S2 by auto; reflexivity|].
  destruct (proj2 (C40_options (py_opts w)) HB). destruct EX as [->|[[[[n m] p]|] ->]]; cbn [bind]; auto.
  destruct (C40_options (py_opts w)) as [_ ->]; auto.
Qed.

(** The dense call that is made. *)
Definition dense_of (w : pycall A) (n m p : Z) : dense_user F :=
  mkDense n m p (pa_data (py_P w)) (match py_b w, py_A w with Some _, Some a => Some (pa_data a) | _, _ => None end)
    (pa_data (py_G w)) (pa_data (py_c w)) (pa_data (py_h w)) (match py_b w, py_A w with Some b, Some _ => Some (pa_data b) | _, _ => None end) None 20.

(** [l] lists the [k] elements of [v]. *)
Definition lists (v : arr F) (k : Z) (l : list F) : Prop :=
  zlen l = k /\ forall i, 0 <= i < k -> exists x, rd v i = Ok x /\ nth_error l (Z.to_nat i) = Some x.

(** The result reports the exit code and the handle. *)
Definition returns (w : pycall A) (code : Z) (q : qp F) (r : pyresult A) : Prop :=
  lists (q_x q) (q_n q) (r_sol r) /\
  (forall c k, r_basic r = Some (c, k) -> c = code /\ k = IterationCount (q_stats q)) /\
  (forall f y z s, r_adv r = Some (f, y, z, s) -> fval (q_stats q) = Some f /\ lists (q_z q) (q_m q) z /\ lists (q_s q) (q_m q) s /\
     match py_b w, py_A w with Some _, Some _ => exists y', y = Some y' /\ lists (q_y q) (q_p q) y' | _, _ => y = None end) /\
  let out := int_of (py_opts w) K_OUTPUT 10 in
  (out = 1 -> r_basic r <> None /\ r_adv r = None) /\ (out = 2 -> r_basic r <> None /\ r_adv r <> None) /\
  (out <> 1 -> out <> 2 -> r_basic r = None /\ r_adv r = None).

Lemma copy_ok v k f : is_vec v k f -> 0 <= k -> wp (copy A v k) (lists v k).
Proof.
  intros [L R] Hk. unfold copy. wb.
  apply (wp_for_le (fun i l => lists v i (rev l))); auto.
  - split; [reflexivity|]. intros i Hi. lia.
  - intros i l Hi [H1 H2]. rewrite R by lia. cbn [bind]. wok. cbn [rev]. split; [rewrite zlen_app, H1; reflexivity|].
    intros j Hj. destruct (Z.eq_dec j i) as [->|Hne].
    + exists (f i). split; [apply R; lia|]. rewrite nth_error_app2; unfold zlen in H1; [|lia]. replace (Z.to_nat i - length (rev l))%nat with O by lia. reflexivity.
    + destruct (H2 j ltac:(lia)) as [x [E1 E2]]. exists x. split; auto. rewrite nth_error_app1; auto. apply nth_error_Some. congruence.
Qed.

Lemma runF_fval B k s : (0 < k)%nat -> fval (sn_st A (fst (runF A B k s))) <> None.
Proof.
  intros Hk. destruct k as [|k]; [lia|]. clear Hk. induction k as [|k IH].
  - cbn. unfold iterF. destruct (stopF A B _ _); discriminate.
  - cbn [runF] in *. destruct (snd (if snd (runF A B k s) then _ else _)); auto.
    unfold iterF at 1. destruct (stopF A B _ _); discriminate.
Qed.

Variable ps : F -> Prop.
Hypothesis SF : Safe A ps.

(** With right shapes and options the call is a dense session: set the wanted options, solve once, return what is in the handle. *)
Theorem C40_runs amd w n m p dP dA dG : shapes w n m p -> options_ok (py_opts w) -> valid_dense A amd (dense_of w n m p) dP dA dG ->
  p <> 0 \/ int_of (py_opts w) K_VERBOSE 0 = 0 ->
  exists code q r, dense_session A amd (dense_of w n m p) [SetOptions A (wanted (py_opts w)); Solve A] = Ok ([code], q) /\
    method_qpSWIFT A amd w = Ok (Return r) /\ returns w code q r /\ (code = 0 \/ code = 2).
Proof.
  intros HS HO HV HQ.
  assert (HL : has_length w).
  { destruct HS as [[_ Hc] [[_ Hh] [_ [_ HE]]]]. split; [rewrite Hc; discriminate|]. split; [rewrite Hh; discriminate|].
    destruct (py_b w); auto. destruct (py_A w); auto. destruct HE as [[_ Hb] _]. rewrite Hb. discriminate. }
  destruct (C40_shapes w HL) as [EA _]. specialize (EA _ _ _ HS).
  destruct (proj1 (C40_options (py_opts w)) HO) as [out Eout].
  destruct (C34_dense_is_sparse A amd _ _ _ _ HV) as [u [SP [VU ES]]].
  assert (Eo : out = match py_opts w with Some d => match d K_OUTPUT with Some (PyInt z) => if 0 <=? AsLong z then AsLong z else 10 | _ => 10 end | None => 10 end).
  { unfold check_options in Eout. destruct (py_opts w) as [d|]; [|injection Eout; auto].
    destruct (obind _ _); [|discriminate]. injection Eout; auto. }
  set (o := wanted (py_opts w)) in *.
  assert (Hmax : 0 < maxit o).
  { unfold o, wanted, int_of. cbn [maxit]. destruct (py_opts w) as [d|]; [|lia]. destruct (d K_MAXITER) as [[z|x|]|] eqn:E; try lia.
    specialize (HO d _ _ eq_refl E). inversion HO. lia. }
  assert (Hq : quiet_calls A u [SetOptions A o; Solve A]).
  { destruct HQ as [HQ|HQ].
    - destruct (Z.eq_dec (u_pe u) 0) as [E|E]; [|left; exact E]. exfalso.
      destruct SP as [S1 S2 S3 S4 S5 S6 S7 S8 S9 S10 S11]. unfold u_pe, u_eqs in E. unfold d_eqs in S11. cbn [dense_of d_A d_b d_p d_n d_ordering] in S11, S3, S6.
      destruct HS as [_ [_ [_ [_ HE]]]]. destruct (py_b w) as [b|]; [|contradiction]. destruct (py_A w) as [a|]; [|contradiction].
      destruct (Z.eqb_spec p 0) as [->|_]; [contradiction|]. destruct S11 as [_ [_ [ajc [air [apr [E1 [E2 [E3 _]]]]]]]].
      rewrite E1, E2, E3, S6 in E. rewrite S3 in E. cbn [dense_of d_b] in E. destruct (Z.eqb_spec p 0); [contradiction|]. lia.
    - right. intros o' [[= <-]|[H|[]]]; [|discriminate H]. unfold o, wanted. cbn [verbose]. lia. }
  destruct (session_from A ps SF amd u VU) as [q0 [B [r [E0 [HB HF]]]]]. destruct (HF _ Hq) as [q [Eq [HA Hi]]].
  set (s1 := set_o A (fresh A B r) o) in *.
  change (callsF A B (fresh A B r) [SetOptions A o; Solve A]) with
    ([Flag (sn_st A (solveF A B s1))], solveF A B s1) in *. cbn [fst snd] in *.
  set (code := Flag (sn_st A (solveF A B s1))) in *.
  exists code, q.
  assert (Ed : QP_SETUP_dense A amd n m p (pa_data (py_P w)) (match py_eqs w with Some (a, _) => Some (pa_data a) | None => None end)
       (pa_data (py_G w)) (pa_data (py_c w)) (pa_data (py_h w)) (match py_eqs w with Some (_, b) => Some (pa_data b) | None => None end) None ROW_MAJOR_ORDERING = Ok q0).
  { assert (ED : dense_setup A amd (dense_of w n m p) = setup A amd u) by (apply (C34_same_handle A amd _ _ dP dA dG); auto; [apply HV|pose proof (vd_m _ _ _ _ _ _ HV); lia]).
    rewrite E0 in ED. unfold dense_setup, dense_of in ED. cbn [d_n d_m d_p d_P d_A d_G d_c d_h d_b d_perm d_ordering] in ED. rewrite <- ED.
    change ROW_MAJOR_ORDERING with 20. unfold py_eqs. destruct (py_b w), (py_A w); reflexivity. }
  assert (Es : QP_SOLVE A (q0 <| q_options := o |>) = Ok (code, q)).
  { unfold session in Eq. rewrite E0 in Eq. cbn [bind run_calls] in Eq. destruct (QP_SOLVE A (q0 <| q_options := o |>)) as [[c q']| |]; cbn in Eq; try discriminate.
    injection Eq as -> ->. reflexivity. }
  assert (Hcode : code = 0 \/ code = 2).
  { unfold code. change (Flag (sn_st A s1)) with QP_FATAL.
    destruct (solveF_any A B s1) as [[i [_ [_ [_ [H1 [H2 H3]]]]]]|[_ [_ [H1 H3]]]]; rewrite H3; change (sn_o A s1) with o in *.
    - destruct (_ =? _); auto.
    - change (IterationCount (sn_st A s1)) with 0 in H1. rewrite H1. replace (0 + Z.max 0 (maxit o)) with (maxit o) by lia. rewrite Z.eqb_refl. auto. }
  assert (Hfv : exists fv, fval (q_stats q) = Some fv).
  { rewrite (at_st _ _ _ _ HA). unfold solveF. pose proof (runF_fval B (Z.to_nat (maxit o)) s1 ltac:(lia)) as H.
    change (maxit (sn_o A s1)) with (maxit o). revert H. generalize (fst (runF A B (Z.to_nat (maxit o)) s1)). intros s2 H.
    unfold finalF. destruct (_ =? _); cbn; destruct (fval (sn_st A s2)) as [fv|]; eauto; congruence. }
  destruct Hfv as [fv Efv].
  pose proof (at_base _ _ _ _ HA) as HBase. pose proof (at_pt _ _ _ _ HA) as HPt.
  assert (Dn : 0 <= q_n q /\ 0 <= q_m q /\ 0 <= q_p q).
  { rewrite (b_n _ _ _ HBase), (b_m _ _ _ HBase), (b_p _ _ _ HBase). destruct (sd_n _ _ _ _ _ HB) as [-> [-> [-> _]]].
    split; [apply VU|]. split; [pose proof (vu_m _ _ VU); lia|]. unfold u_pe. destruct (u_eqs u) as [[[[ajc air] apr] bb]|] eqn:E; [|lia].
    apply (vu_A _ _ VU _ _ _ _ E). }
  destruct Dn as [Dn [Dm Dp]].
  destruct (proj1 (wp_exists _ _) (copy_ok (q_x q) (q_n q) (ptX A (sn_pt A (solveF A B s1))) ltac:(rewrite (b_n _ _ _ HBase); apply HPt) Dn)) as [x [Ex Lx]].
  destruct (proj1 (wp_exists _ _) (copy_ok (q_y q) (q_p q) (ptY A (sn_pt A (solveF A B s1))) ltac:(rewrite (b_p _ _ _ HBase); apply HPt) Dp)) as [y [Ey Ly]].
  destruct (proj1 (wp_exists _ _) (copy_ok (q_z q) (q_m q) (ptZ A (sn_pt A (solveF A B s1))) ltac:(rewrite (b_m _ _ _ HBase); apply HPt) Dm)) as [z [Ez Lz]].
  destruct (proj1 (wp_exists _ _) (copy_ok (q_s q) (q_m q) (ptS A (sn_pt A (solveF A B s1))) ltac:(rewrite (b_m _ _ _ HBase); apply HPt) Dm)) as [s [Es' Ls]].
  assert (Eout' : (int_of (py_opts w) K_OUTPUT 10 = 1 <-> out = 1) /\ (int_of (py_opts w) K_OUTPUT 10 = 2 <-> out = 2)).
  { rewrite Eo. unfold int_of. destruct (py_opts w) as [d|]; [|lia]. destruct (d K_OUTPUT) as [[k|xx|]|]; try lia.
    destruct (Z.leb_spec 0 (AsLong k)) as [H|H]; [destruct (AsLong_range k H); lia|].
    assert (~ 0 <= k < 2 ^ 63) by (intros Hk; rewrite AsLong_id in H; lia). lia. }
  assert (EM : method_qpSWIFT A amd w = (
          if out =? 1 then Ok (Return (mkPyresult x (Some (code, IterationCount (q_stats q))) None))
          else if out =? 2 then Ok (Return (mkPyresult x (Some (code, IterationCount (q_stats q)))
             (Some (fv, match py_eqs w with Some _ => Some y | None => None end, z, s))))
          else Ok (Return (mkPyresult x None None)))).
  { unfold method_qpSWIFT. rewrite EA. cbn [bind]. rewrite Eout, Ed. cbn [bind]. rewrite Es. cbn [bind]. rewrite Ex. cbn [bind].
    destruct (out =? 1); auto. destruct (out =? 2); auto. rewrite Ez, Es'. rewrite Ey. rewrite Efv.
    destruct (py_eqs w); reflexivity. }
  destruct Eout' as [EO1 EO2]. unfold returns. rewrite ES.
  destruct (Z.eqb_spec out 1) as [O1|O1]; [|destruct (Z.eqb_spec out 2) as [O2|O2]]; eexists; (split; [exact Eq|]); (split; [exact EM|]); (split; [|exact Hcode]);
    cbn [r_sol r_basic r_adv]; (split; [exact Lx|]); (split; [intros c k [= <- <-] || discriminate; auto|]); (split; [|cbv zeta; split; [|split]; intros; try (split; discriminate || reflexivity); exfalso; tauto || lia]);
    intros f y' z' s' E; try discriminate E.
  injection E as <- <- <- <-. split; auto. split; auto. split; auto. unfold py_eqs. destruct (py_b w), (py_A w); eauto.
Qed.

(** Without equality constraints, VERBOSE >= 1 makes the solver print a number it never computed (C27), also through Python. *)
Theorem C40_verbose amd w n m p dP dA dG : shapes w n m p -> options_ok (py_opts w) -> valid_dense A amd (dense_of w n m p) dP dA dG ->
  p = 0 -> 0 < int_of (py_opts w) K_VERBOSE 0 -> method_qpSWIFT A amd w = Ub Uninit.
Proof.
  intros HS HO HV HP HQ.
  assert (HL : has_length w).
  { destruct HS as [[_ Hc] [[_ Hh] [_ [_ HE]]]]. split; [rewrite Hc; discriminate|]. split; [rewrite Hh; discriminate|].
    destruct (py_b w); auto. destruct (py_A w); auto. destruct HE as [[_ Hb] _]. rewrite Hb. discriminate. }
  destruct (C40_shapes w HL) as [EA _]. specialize (EA _ _ _ HS).
  destruct (proj1 (C40_options (py_opts w)) HO) as [out Eout].
  destruct (C34_dense_is_sparse A amd _ _ _ _ HV) as [u [SP [VU ES]]].
  assert (EU : u_pe u = 0).
  { unfold u_pe, u_eqs. rewrite (sf_p _ _ _ _ _ _ SP). cbn [dense_of d_p]. rewrite HP. cbn. destruct (u_Apr u), (u_Ajc u), (u_Air u), (u_b u); reflexivity. }
  set (o := wanted (py_opts w)) in *.
  assert (Hmax : 1 <= maxit o).
  { unfold o, wanted, int_of. cbn [maxit]. destruct (py_opts w) as [d|]; [|lia]. destruct (d K_MAXITER) as [[z|x|]|] eqn:E; try lia.
    specialize (HO d _ _ eq_refl E). inversion HO. lia. }
  pose proof (C27_verbose_uninitialised A ps amd u [] o SF VU EU ltac:(right; intros o' []) HQ Hmax) as HU. cbn [app] in HU.
  rewrite <- ES in HU. unfold dense_session, dense_setup, dense_of in HU. cbn [d_n d_m d_p d_P d_A d_G d_c d_h d_b d_perm d_ordering] in HU.
  unfold method_qpSWIFT. rewrite EA. cbn [bind]. rewrite Eout. fold o. unfold py_eqs.
  change ROW_MAJOR_ORDERING with 20. destruct (py_b w), (py_A w); cbn [run_calls] in HU;
  (destruct (QP_SETUP_dense A amd n m p _ _ _ _ _ _ None 20) as [q0| |]; cbn [bind] in *; [|congruence..];
   destruct (QP_SOLVE A (q0 <| q_options := o |>)) as [[c q]| |]; cbn [bind] in *; congruence).
Qed.

(** A zero-dimensional c or h: the length is read through a null pointer before any check. *)
Theorem C40_zero_dimensional amd w : pa_dims (py_c w) = [] -> method_qpSWIFT A amd w = Ub NullPtr.
Proof. intros E. unfold method_qpSWIFT, check_arrays, dim0. rewrite E. reflexivity. Qed.
End Python.
Print Assumptions C40_options.
Print Assumptions C40_shapes.
Print Assumptions C40_raises.
Print Assumptions C40_runs.
Print Assumptions C40_verbose.

(** IEEE doubles. *)
Theorem C40_python_binary64 amd w n m p dP dA dG : shapes FA w n m p -> options_ok FA (py_opts w) ->
  valid_dense FA amd (dense_of FA w n m p) dP dA dG -> p <> 0 \/ int_of FA (py_opts w) K_VERBOSE 0 = 0 ->
  exists code q r, dense_session FA amd (dense_of FA w n m p) [SetOptions FA (wanted FA (py_opts w)); Solve FA] = Ok ([code], q) /\
    method_qpSWIFT FA amd w = Ok (Return r) /\ returns FA w code q r /\ (code = 0 \/ code = 2).
Proof. apply (C40_runs FA _ (Safe_total FA FA_total)). Qed.
Print Assumptions C40_python_binary64.

(** *** Cases *)

(** An ordering package that returns the identity. *)
Definition amd_id : amd_t := fun n _ _ _ => Ok (0, full (map Z.of_nat (seq 0 (Z.to_nat n)))).

Lemma amd_id_ok N cap fits : 0 <= N -> ordering_ok amd_id N cap fits.
Proof.
  intros HN Jc Ir nz P _ _ _. eexists _, _. split; [reflexivity|].
  assert (L : zlen (map Z.of_nat (seq 0 (Z.to_nat N))) = N) by (unfold zlen; rewrite map_length, seq_length; lia).
  assert (E : forall i, 0 <= i < N -> rd (full (map Z.of_nat (seq 0 (Z.to_nat N)))) i = Ok i).
  { intros i Hi. apply rd_full; [|lia]. rewrite nth_error_map, nth_error_nth' with (d := O) by (rewrite seq_length; lia).
    rewrite seq_nth by lia. cbn. f_equal. lia. }
  split; [rewrite zlen_full; exact L|]. split; [|lia]. intros _. split.
  - intros k Hk. exists k. auto.
  - intros i j v Hi Hj E1 E2. rewrite E in E1, E2 by auto. congruence.
Qed.

(** The problem of [demo] as Python arguments. *)
Definition demo_py (A : Arith) (d : option (pydict A)) : pycall A :=
  mkPycall (mkPyarr true [3] (fs A [1; 2; 1])) (mkPyarr true [2] (fs A [-1; -1]))
    (mkPyarr true [3; 3] (fs A [5; 1; 0; 1; 2; 1; 0; 1; 4])) (mkPyarr true [2; 3] (fs A [-4; -4; 0; 0; 0; -1]))
    (Some (mkPyarr true [1; 3] (fs A [1; -2; 1]))) (Some (mkPyarr true [1] (fs A [3]))) d.
Definition demo_opts (A : Arith) (z : Z) : pydict A := fun k => match k with K_MAXITER => Some (PyInt z) | K_OUTPUT => Some (PyInt 2) | _ => None end.

Definition entriesF (l : list (list Z)) (i j : Z) : car FA := fofZ FA (nth (Z.to_nat j) (nth (Z.to_nat i) l []) 0).

Example C40_case : let w := demo_py FA (Some (demo_opts FA 50)) in
  shapes FA w 3 2 1 /\ options_ok FA (py_opts w) /\ ~ options_ok FA (Some (demo_opts FA 200)) /\
  valid_dense FA amd_id (dense_of FA w 3 2 1) (entriesF [[5; 1; 0]; [1; 2; 1]; [0; 1; 4]]) (entriesF [[1; -2; 1]]) (entriesF [[-4; -4; 0]; [0; 0; -1]]).
Proof.
  cbv zeta. split; [repeat split|]. split.
  { intros d k v [= <-] E. destruct k; try discriminate E; injection E as <-; constructor. lia. }
  split.
  { intros H. specialize (H _ K_MAXITER _ eq_refl eq_refl). inversion H. lia. }
  split.
  - cbn; lia.
  - cbn; lia.
  - intros i j Hi Hj. cbn [dense_of d_n] in *. enum i; enum j; reflexivity.
  - intros i j Hi Hj. cbn [dense_of d_n d_m] in *. enum i; enum j; reflexivity.
  - intros a bb E. cbn in E. injection E as <- <-. cbn [dense_of d_p d_n d_ordering].
    split; [lia|]. split; [intros i j Hi Hj; enum i; enum j; reflexivity|]. intros i Hi. enum i. eexists. reflexivity.
  - intros i Hi. cbn [dense_of d_n] in *. enum i; eexists; reflexivity.
  - intros i Hi. cbn [dense_of d_m] in *. enum i; eexists; reflexivity.
  - exists 0, 0. split; [cbn; lia|]. left. split; [cbn; lia|]. vm_compute. reflexivity.
  - cbn [dense_of d_perm]. apply amd_id_ok. cbn. lia.
Qed.

(** A problem without equality constraints, printing requested. *)
Definition loud_py : pycall FA :=
  mkPycall (mkPyarr true [1] (fs FA [1])) (mkPyarr true [1] (fs FA [1])) (mkPyarr true [1; 1] (fs FA [1])) (mkPyarr true [1; 1] (fs FA [1]))
    None None (Some (fun k => match k with K_VERBOSE => Some (PyInt 1) | _ => None end)).

Theorem C40_verbose_defined_refuted : exists w : pycall FA, shapes FA w 1 1 0 /\ options_ok FA (py_opts w) /\
  (exists dP dA dG, valid_dense FA amd_id (dense_of FA w 1 1 0) dP dA dG) /\ method_qpSWIFT FA amd_id w = Ub Uninit.
Proof.
  exists loud_py. assert (H1 : shapes FA loud_py 1 1 0) by (repeat split).
  assert (H2 : options_ok FA (py_opts loud_py)).
  { intros d k v [= <-] E. destruct k; try discriminate E; injection E as <-; constructor. lia. }
  assert (H3 : valid_dense FA amd_id (dense_of FA loud_py 1 1 0) (entriesF [[1]]) (entriesF []) (entriesF [[1]])).
  { split.
    - cbn; lia.
    - cbn; lia.
    - intros i j Hi Hj. cbn [dense_of d_n] in *. enum i; enum j; reflexivity.
    - intros i j Hi Hj. cbn [dense_of d_n d_m] in *. enum i; enum j; reflexivity.
    - intros a bb E. cbn in E. discriminate.
    - intros i Hi. cbn [dense_of d_n] in *. enum i; eexists; reflexivity.
    - intros i Hi. cbn [dense_of d_m] in *. enum i; eexists; reflexivity.
    - exists 0, 0. split; [cbn; lia|]. left. split; [cbn; lia|]. vm_compute. reflexivity.
    - cbn [dense_of d_perm]. apply amd_id_ok. cbn. lia. }
  split; auto. split; auto. split; [eauto|].
  apply (C40_verbose FA _ (Safe_total FA FA_total) amd_id loud_py 1 1 0 _ _ _ H1 H2 H3); [reflexivity|cbn; lia].
Qed.
Print Assumptions C40_verbose_defined_refuted.
