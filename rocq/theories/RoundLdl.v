(** Backward error of the factorisation and of the solves in binary64. *)
From Coq Require Import ZArith Reals List Lia Lra Bool Permutation.
From Flocq Require Import Core BinarySingleNaN.
From Verif Require Import Res Arith Lists MSparse Csc SemVec MLdl LdlSpec LdlSym LdlNum LdlSolve LdlR QpSpec Round.
Import ListNotations.
Open Scope R_scope.

(** ** Running errors seen from the result *)

(** 1 / (1 - u)^k *)
Definition hh : R := / (1 - uu).
Definition hp (k : nat) : R := hh ^ k.

Lemma hh_eq : hh * (1 - uu) = 1.
Proof. unfold hh. pose proof uu_small. field. lra. Qed.
Lemma hh_ge : 1 + uu <= hh.
Proof. pose proof hh_eq. pose proof uu_pos. pose proof uu_small. assert (0 < hh) by (apply Rinv_0_lt_compat; lra). nra. Qed.
Lemma hp_ge1 k : 1 <= hp k.
Proof. apply pow_R1_Rle. pose proof hh_ge. pose proof uu_pos. lra. Qed.
Lemma hp_S k : hp (S k) = hh * hp k.
Proof. reflexivity. Qed.
Lemma hp_mono k l : (k <= l)%nat -> hp k <= hp l.
Proof. intros H. apply Rle_pow; auto. pose proof hh_ge. pose proof uu_pos. lra. Qed.
Lemma hp_add k l : hp (k + l) = hp k * hp l.
Proof. apply pow_add. Qed.

(** 1 / (1 - u)^K is at most 1 + 2 K u. *)
Lemma hp_small K : gamma K <= 1 -> hp K <= 1 + gamma K.
Proof.
  intros H. assert (B : 1 - INR K * uu <= (1 - uu) ^ K).
  { clear H. pose proof uu_small. pose proof uu_pos. induction K; [simpl; lra|]. rewrite S_INR. cbn [pow].
    assert (0 <= INR K * uu) by (apply Rmult_le_pos; [apply pos_INR|lra]).
    assert (0 <= (1 - uu) * ((1 - uu) ^ K - (1 - INR K * uu))) by (apply Rmult_le_pos; lra). nra. }
  unfold gamma in *. set (a := INR K * uu) in *. assert (0 <= a) by (apply Rmult_le_pos; [apply pos_INR|pose proof uu_pos; lra]).
  replace (2 * INR K * uu) with (2 * a) in * by (unfold a; ring).
  unfold hp, hh. rewrite pow_inv. apply Rle_trans with (/ (1 - a)); [apply Rinv_le; lra|].
  apply Rmult_le_reg_r with (1 - a); [lra|]. rewrite Rinv_l by lra. nra.
Qed.

(** x = y (1 + e) gives y back up to a relative error of 1/(1-u) - 1. *)
Lemma unround x y e : Rabs e <= uu -> x = y * (1 + e) -> Rabs (y - x) <= (hh - 1) * Rabs x.
Proof.
  intros He ->. pose proof uu_small. pose proof uu_pos. pose proof hh_eq. pose proof hh_ge.
  replace (y - y * (1 + e)) with (- (y * e)) by ring. rewrite Rabs_Ropp, !Rabs_mult.
  assert (1 - uu <= Rabs (1 + e)). { pose proof (Rabs_triang_inv 1 (- e)) as T. rewrite Rabs_R1, Rabs_Ropp in T. replace (1 - - e) with (1 + e) in T by ring. lra. }
  assert (P : (hh - 1) * (1 - uu) = uu) by nra.
  assert (Q : uu <= (hh - 1) * Rabs (1 + e)) by (rewrite <- P at 1; apply Rmult_le_compat_l; lra).
  pose proof (Rabs_pos y). apply Rle_trans with (Rabs y * uu); [apply Rmult_le_compat_l; lra|]. nra.
Qed.

(** The start of a running difference, from its result. *)
Lemma foldm_back l : forall acc, is_finite (foldm l acc) = true ->
  Rabs (B2R acc - (B2R (foldm l acc) + vals l)) <= (hp (length l) - 1) * (Rabs (B2R (foldm l acc)) + sizes l) + hp (length l) * (INR (length l) * eta).
Proof.
  induction l as [|[a b] l IH]; intros acc F.
  - unfold foldm, vals, sizes. cbn [fold_left sumr length INR]. replace (B2R acc - (B2R acc + 0)) with 0 by ring. rewrite Rabs_R0. unfold hp. simpl. lra.
  - change (foldm ((a, b) :: l) acc) with (foldm l (fsub FA acc (fmul FA a b))) in *. set (acc1 := fsub FA acc (fmul FA a b)) in *.
    specialize (IH acc1 F). destruct (foldm_fin l acc1 F) as [F1 _]. destruct (sub_fin _ _ F1) as [F2 F3].
    destruct (sub_val acc (fmul FA a b) F1) as [e [He E1]]. destruct (mul_val a b F3) as [d [n [Hd [Hn E2]]]]. fold acc1 in E1.
    apply unround with (1 := He) in E1. rewrite E2 in E1.
    set (s := B2R (foldm l acc1)) in *. cbn [length]. rewrite S_INR, hp_S.
    unfold vals, sizes in *. cbn [sumr fst snd] in *. set (V := sumr (fun t => B2R (fst t) * B2R (snd t)) l) in *. set (S := sumr (fun t => Rabs (B2R (fst t)) * Rabs (B2R (snd t))) l) in *.
    assert (HV : Rabs V <= S).
    { unfold V, S. clear. induction l as [|t l IH]; cbn [sumr]; [rewrite Rabs_R0; lra|]. eapply Rle_trans; [apply Rabs_triang|]. rewrite Rabs_mult. lra. }
    set (m := length l) in *. set (x := B2R acc1) in *. set (p := B2R a * B2R b) in *. rewrite <- Rabs_mult. fold p.
    pose proof (hp_ge1 m) as G1. pose proof hh_ge as G2. pose proof uu_pos as U. pose proof eta_pos as T.
    assert (Hx : Rabs x <= hp m * (Rabs s + S) + hp m * (INR m * eta)).
    { replace x with ((x - (s + V)) + (s + V)) by ring. eapply Rle_trans; [apply Rabs_triang|].
      eapply Rle_trans; [apply Rplus_le_compat; [exact IH|apply Rabs_triang]|]. lra. }
    replace (B2R acc - (s + (p + V))) with (((B2R acc - (p * (1 + d) + n)) - x) + (x - (s + V)) + p * d + n) by ring.
    eapply Rle_trans; [apply Rabs_triang|]. eapply Rle_trans; [apply Rplus_le_compat_r, Rabs_triang|].
    eapply Rle_trans; [apply Rplus_le_compat_r, Rplus_le_compat_r, Rabs_triang|].
    assert (P1 : Rabs (p * d) <= Rabs p * (hh * hp m - 1)).
    { rewrite Rabs_mult. apply Rmult_le_compat_l; [apply Rabs_pos|]. nra. }
    assert (P2 : Rabs (B2R acc - (p * (1 + d) + n) - x) <= (hh - 1) * (hp m * (Rabs s + S) + hp m * (INR m * eta))).
    { eapply Rle_trans; [exact E1|]. apply Rmult_le_compat_l; lra. }
    assert (P3 : eta <= hh * hp m * eta).
    { rewrite <- (Rmult_1_l eta) at 1. apply Rmult_le_compat_r; [lra|]. nra. }
    pose proof (Rabs_pos p). pose proof (pos_INR m). lra.
Qed.

(** A quotient and its parts. *)
Lemma div_back (x y : b64) : is_finite (b64_div x y) = true -> is_finite y = true -> B2R y <> 0 -> is_finite x = true /\
  Rabs (B2R x - B2R (b64_div x y) * B2R y) <= (hh - 1) * (Rabs (B2R (b64_div x y)) * Rabs (B2R y)) + hh * eta * Rabs (B2R y).
Proof.
  intros F Fy Ny. destruct (div_val x y F Fy Ny) as [Fx [e [n [He [Hn E]]]]]. split; auto.
  set (q := B2R (b64_div x y)) in *. set (a := B2R x) in *. set (b := B2R y) in *.
  assert (E' : (q - n) * b = a * (1 + e)) by (rewrite E; field; auto).
  apply unround with (1 := He) in E'. pose proof hh_ge. pose proof uu_pos. pose proof eta_pos.
  replace (a - q * b) with ((a - (q - n) * b) - n * b) by ring.
  eapply Rle_trans; [apply Rabs_triang|]. rewrite Rabs_Ropp, Rabs_mult.
  assert (Rabs ((q - n) * b) <= Rabs q * Rabs b + eta * Rabs b).
  { rewrite Rabs_mult, <- Rmult_plus_distr_r. apply Rmult_le_compat_r; [apply Rabs_pos|]. eapply Rle_trans; [apply Rabs_triang|]. rewrite Rabs_Ropp. lra. }
  assert (Rabs n * Rabs b <= eta * Rabs b) by (apply Rmult_le_compat_r; auto using Rabs_pos).
  assert ((hh - 1) * Rabs ((q - n) * b) <= (hh - 1) * (Rabs q * Rabs b + eta * Rabs b)) by (apply Rmult_le_compat_l; lra).
  lra.
Qed.

(** ** The regularisation *)

Lemma one_val : is_finite (f1 FA) = true /\ B2R (f1 FA) = 1.
Proof. destruct (ofZ_val 1 ltac:(lia)) as [H1 H2]. split; auto. Qed.

Lemma mul_one (s : bool) (x : b64) : is_finite x = true ->
  let y := fmul FA (if s then fopp FA (f1 FA) else f1 FA) x in is_finite y = true /\ B2R y = if s then - B2R x else B2R x.
Proof.
  intros Fx. cbv zeta. set (o := if s then fopp FA (f1 FA) else f1 FA). destruct one_val as [F1 V1].
  assert (Fo : is_finite o = true) by (unfold o; destruct s; auto; cbn [fopp FA]; rewrite is_finite_Bopp; auto).
  assert (Vo : B2R o = if s then -1 else 1) by (unfold o; destruct s; auto; cbn [fopp FA]; rewrite B2R_Bopp, V1; lra).
  pose proof (Bmult_correct 53 1024 prec64 emax64 mode_NE o x) as C. rewrite Vo in C.
  replace ((if s then -1 else 1) * B2R x) with (if s then - B2R x else B2R x) in C by (destruct s; ring).
  assert (GF : generic_format radix2 (SpecFloat.fexp 53 1024) (if s then - B2R x else B2R x)).
  { destruct s; [apply generic_format_opp|]; apply generic_format_B2R. }
  rewrite round_generic in C; [|apply valid_rnd_round_mode|exact GF].
  rewrite Rlt_bool_true in C.
  2:{ replace (Rabs (if s then - B2R x else B2R x)) with (Rabs (B2R x)) by (destruct s; [rewrite Rabs_Ropp|]; auto). apply abs_B2R_lt_emax. }
  destruct C as [C1 [C2 _]]. cbn [fmul FA]. split; [rewrite C2, Fo, Fx; reflexivity|exact C1].
Qed.

Lemma fle_R (x y : b64) : is_finite x = true -> is_finite y = true -> fle FA x y = true <-> B2R x <= B2R y.
Proof.
  intros Fx Fy. cbn [fle FA]. unfold Bleb, SpecFloat.SFleb. change (SpecFloat.SFcompare (B2SF x) (B2SF y)) with (Bcompare x y).
  rewrite (Bcompare_correct 53 1024 x y Fx Fy).
  destruct (Rcompare_spec (B2R x) (B2R y)); split; intros; try discriminate; auto; lra.
Qed.

Lemma dec_val (d : Z) : (1 <= d < 2 ^ 53)%Z -> is_finite (fdec FA 1 d) = true -> Rabs (B2R (fdec FA 1 d) - 1 / IZR d) <= uu / IZR d + eta.
Proof.
  intros Hd. cbn [fdec FA]. intros F. destruct (ofZ_val d ltac:(lia)) as [F2 V2]. destruct (ofZ_val 1 ltac:(lia)) as [F1 V1].
  assert (0 < IZR d) by (apply IZR_lt; lia).
  destruct (div_val (b64_ofZ 1) (b64_ofZ d) F F2 ltac:(lra)) as [_ [e [n [He [Hn ->]]]]]. rewrite V1, V2.
  replace (1 / IZR d * (1 + e) + n - 1 / IZR d) with (e / IZR d + n) by (field; lra).
  eapply Rle_trans; [apply Rabs_triang|]. unfold Rdiv. rewrite Rabs_mult, (Rabs_pos_eq (/ IZR d)) by (apply Rlt_le, Rinv_0_lt_compat; auto).
  apply Rplus_le_compat; auto. apply Rmult_le_compat_r; auto. apply Rlt_le, Rinv_0_lt_compat; auto.
Qed.

Lemma ieps_fin : is_finite (ldl_eps FA) = true. Proof. vm_compute. reflexivity. Qed.
Lemma idelta_fin : is_finite (ldl_delta FA) = true. Proof. vm_compute. reflexivity. Qed.

Lemma uu_le : uu <= / 1000000000000000.
Proof. unfold uu. change (bpow radix2 (-53)) with (/ 9007199254740992). apply Rinv_le; lra. Qed.
Lemma eta_le : eta <= / 1000000000000000000000000000000.
Proof.
  apply Rle_trans with (bpow radix2 (-100)); [unfold eta; apply bpow_le; lia|].
  change (bpow radix2 (-100)) with (/ 1267650600228229401496703205376). apply Rinv_le; lra.
Qed.

Lemma eps_val : Rabs (B2R (ldl_eps FA) - 1 / 100000000000000) <= / 10000000000000000000000000000.
Proof.
  eapply Rle_trans; [apply (dec_val 100000000000000 ltac:(lia) ieps_fin)|]. pose proof uu_le. pose proof eta_le. lra.
Qed.
Lemma delta_val : Rabs (B2R (ldl_delta FA) - 1 / 10000000) <= / 1000000000000000000000.
Proof.
  eapply Rle_trans; [apply (dec_val 10000000 ltac:(lia) idelta_fin)|]. pose proof uu_le. pose proof eta_le. lra.
Qed.

Lemma reg_F (d : b64) : is_finite (regularize FA d) = true ->
  is_finite d = true /\ B2R (regularize FA d) <> 0 /\ Rabs (B2R d) <= Rabs (B2R (regularize FA d)) /\
  ((regularize FA d = d /\ B2R (ldl_eps FA) < Rabs (B2R d)) \/
   (Rabs (B2R d) <= B2R (ldl_eps FA) /\ B2R (regularize FA d) = if Rle_dec (B2R d) 0 then - B2R (ldl_delta FA) else B2R (ldl_delta FA))).
Proof.
  intros F. pose proof eps_val as EV. pose proof delta_val as DV. apply Rabs_le_inv in EV. apply Rabs_le_inv in DV.
  assert (EV' : 9 / 1000000000000000 <= B2R (ldl_eps FA) <= 11 / 1000000000000000) by lra.
  assert (DV' : 9 / 100000000 <= B2R (ldl_delta FA) <= 11 / 100000000) by lra. clear EV DV.
  assert (Fd : is_finite d = true).
  { destruct d as [s|s| |s m e H]; [reflexivity| | |reflexivity]; exfalso; [destruct s|]; revert F; vm_compute; discriminate. }
  split; auto. unfold regularize in *. set (z := f0 FA) in *.
  assert (Fz : is_finite z = true) by reflexivity. assert (Vz : B2R z = 0) by reflexivity.
  pose proof (fle_R d z Fd Fz) as L1. rewrite Vz in L1. destruct (fle FA d z) eqn:E1.
  - assert (Hd : B2R d <= 0) by (apply L1; auto). destruct (mul_one true d Fd) as [Fm Vm]. cbv zeta beta iota in Fm, Vm.
    pose proof (fle_R _ _ Fm ieps_fin) as L2. rewrite Vm in L2. destruct (fle FA (fmul FA _ d) (ldl_eps FA)).
    + destruct (mul_one true (ldl_delta FA) idelta_fin) as [_ Vd]. cbv zeta beta iota in Vd. rewrite Vd.
      assert (- B2R d <= B2R (ldl_eps FA)) by (apply L2; auto). rewrite (Rabs_left1 (B2R d)), Rabs_Ropp by auto.
      rewrite (Rabs_pos_eq (B2R (ldl_delta FA))) by lra. repeat split; try lra. right. split; auto. destruct (Rle_dec _ _); lra.
    + assert (~ - B2R d <= B2R (ldl_eps FA)) by (intros H; apply L2 in H; discriminate). rewrite (Rabs_left1 (B2R d)) by auto.
      repeat split; try lra. left. split; auto. lra.
  - assert (Hd : ~ B2R d <= 0) by (intros H; apply L1 in H; discriminate). destruct (mul_one false d Fd) as [Fm Vm]. cbv zeta beta iota in Fm, Vm.
    pose proof (fle_R _ _ Fm ieps_fin) as L2. rewrite Vm in L2. destruct (fle FA (fmul FA _ d) (ldl_eps FA)).
    + destruct (mul_one false (ldl_delta FA) idelta_fin) as [_ Vd]. cbv zeta beta iota in Vd. rewrite Vd.
      assert (B2R d <= B2R (ldl_eps FA)) by (apply L2; auto). rewrite (Rabs_pos_eq (B2R d)) by lra.
      rewrite (Rabs_pos_eq (B2R (ldl_delta FA))) by lra. repeat split; try lra. right. split; auto. destruct (Rle_dec _ _); lra.
    + assert (~ B2R d <= B2R (ldl_eps FA)) by (intros H; apply L2 in H; discriminate). rewrite (Rabs_pos_eq (B2R d)) by lra.
      repeat split; try lra. left. split; auto. lra.
Qed.

(** ** A column without repeated rows, scattered *)

Lemma add_zero (v : b64) : is_finite (fadd FA (f0 FA) v) = true -> B2R (fadd FA (f0 FA) v) = B2R v.
Proof.
  intros F. destruct (add_fin _ _ F) as [F0 Fv]. pose proof (Bplus_correct 53 1024 prec64 emax64 mode_NE (f0 FA) v F0 Fv) as C.
  change (B2R (f0 FA)) with 0 in C. rewrite Rplus_0_l in C. rewrite round_generic in C; [|apply valid_rnd_round_mode|apply generic_format_B2R].
  rewrite Rlt_bool_true in C by apply abs_B2R_lt_emax. apply C.
Qed.

Definition entB (l : list (Z * b64)) (r : Z) : R := ent (map (fun e => (fst e, B2R (snd e))) l) r.

Lemma scatter_one (l : list (Z * b64)) r : NoDup (map fst l) -> forall acc,
  (fold_left (fun acc e => if (fst e =? r)%Z then fadd FA acc (snd e) else acc) l acc = acc /\ entB l r = 0) \/
  (exists v, fold_left (fun acc e => if (fst e =? r)%Z then fadd FA acc (snd e) else acc) l acc = fadd FA acc v /\ entB l r = B2R v).
Proof.
  unfold entB, ent. induction l as [|[a v] l IH]; intros ND acc; cbn [fold_left map sumr fst snd]; [left; auto|].
  inversion ND as [|? ? N1 N2]; subst. cbn [fst] in N1. destruct (Z.eqb_spec a r) as [->|Hne].
  - right. exists v. assert (E : forall acc, fold_left (fun acc e => if (fst e =? r)%Z then fadd FA acc (snd e) else acc) l acc = acc).
    { clear -N1. induction l as [|[a w] l IH]; intros acc; cbn [fold_left map fst snd] in *; auto. destruct (Z.eqb_spec a r); [simpl in N1; tauto|]. apply IH. simpl in N1; tauto. }
    rewrite E. split; auto. rewrite sumr_zero; [lra|]. intros e He. apply in_map_iff in He. destruct He as [e' [<- He]]. cbn [fst snd].
    destruct (Z.eqb_spec (fst e') r); auto. exfalso. apply N1. apply in_map_iff. eauto.
  - destruct (IH N2 acc) as [[E1 E2]|[w [E1 E2]]]; [left|right; exists w]; rewrite E1; (split; [auto|]); rewrite E2; lra.
Qed.

Lemma scatter_val (l : list (Z * b64)) r : NoDup (map fst l) ->
  let y := fold_left (fun acc e => if (fst e =? r)%Z then fadd FA acc (snd e) else acc) l (f0 FA) in
  is_finite y = true -> B2R y = entB l r.
Proof.
  intros ND. cbv zeta. destruct (scatter_one l r ND (f0 FA)) as [[-> ->]|[v [-> ->]]]; [reflexivity|apply add_zero].
Qed.

(** ** Sums *)

Lemma nodup_len l (n : Z) : NoDup l -> (forall x, In x l -> (0 <= x < n)%Z) -> (length l <= Z.to_nat n)%nat.
Proof.
  intros ND HB. pose proof (zlen_zr 0 n) as E. unfold zlen in E. apply Nat.le_trans with (length (zr 0 n)); [|lia].
  apply NoDup_incl_length; auto. intros x Hx. apply in_zr. auto.
Qed.

Lemma vals_map {T} (f g : T -> b64) l : vals (map (fun j => (f j, g j)) l) = sumr (fun j => B2R (f j) * B2R (g j)) l.
Proof. unfold vals. rewrite sumr_map. reflexivity. Qed.
Lemma sizes_map {T} (f g : T -> b64) l : sizes (map (fun j => (f j, g j)) l) = sumr (fun j => Rabs (B2R (f j)) * Rabs (B2R (g j))) l.
Proof. unfold sizes. rewrite sumr_map. reflexivity. Qed.

Lemma foldm_cond {T} (p : T -> bool) (f g : T -> b64) l : forall acc,
  fold_left (fun acc j => if p j then fsub FA acc (fmul FA (f j) (g j)) else acc) l acc = foldm (map (fun j => (f j, g j)) (filter p l)) acc.
Proof. induction l as [|x l IH]; intros acc; cbn [fold_left filter map]; auto. destruct (p x); cbn [map]; apply IH. Qed.

Lemma foldm_all {T} (f g : T -> b64) l : forall acc,
  fold_left (fun acc j => fsub FA acc (fmul FA (f j) (g j))) l acc = foldm (map (fun j => (f j, g j)) l) acc.
Proof. induction l as [|x l IH]; intros acc; cbn [fold_left map]; [reflexivity|apply IH]. Qed.

(** The running difference with an upper bound on the number of terms. *)
Lemma foldm_back_le l acc N : is_finite (foldm l acc) = true -> (length l <= N)%nat ->
  Rabs (B2R acc - (B2R (foldm l acc) + vals l)) <= (hp N - 1) * (Rabs (B2R (foldm l acc)) + sizes l) + hp N * (INR N * eta).
Proof.
  intros F H. eapply Rle_trans; [apply foldm_back; auto|]. pose proof (hp_mono _ _ H). pose proof (hp_ge1 (length l)).
  assert (0 <= sizes l) by (apply sumr_nonneg; intros; apply Rmult_le_pos; apply Rabs_pos). pose proof (Rabs_pos (B2R (foldm l acc))).
  apply Rplus_le_compat.
  - apply Rmult_le_compat_r; lra.
  - pose proof eta_pos. pose proof (pos_INR (length l)). apply le_INR in H. apply Rmult_le_compat; try lra; try (apply Rmult_le_pos; lra).
    apply Rmult_le_compat_r; lra.
Qed.

Section FactF.
Variables (n : Z) (col : cols b64) (Pf Qf par : Z -> Z).
Notation rows := (brows Pf Qf col).
Notation pl := (fun k => patlist n par (rows k) k).
Hypothesis Hn : (0 <= n)%Z.
Hypothesis HF : forest n par rows.
Hypothesis HP : isperm n Pf Qf.
Hypothesis HR : rows_in n n col.
Hypothesis HU : forall c, (0 <= c < n)%Z -> NoDup (map fst (col c)).
Variables (y Lv : Z -> Z -> b64) (Dv : Z -> b64).
Hypothesis HN : NumSpec FA n col Pf Qf par y Lv Dv.
Hypothesis FL : forall k i, (0 <= k < n)%Z -> In i (pl k) -> is_finite (Lv k i) = true.
Hypothesis FD : forall k, (0 <= k < n)%Z -> is_finite (Dv k) = true.
Notation N := (Z.to_nat n).

Definition LF (r j : Z) : R := if (r =? j)%Z then 1 else if inb j (pl r) then B2R (Lv r j) else 0.
Definition DF (j : Z) : R := B2R (Dv j).
Definition pivF (k : Z) : b64 := dfold FA col Pf Qf (Lv k) (y k) k (pl k).
Definition EF (k : Z) : R := DF k - B2R (pivF k).
Definition BF (r k : Z) : R := entB (bcol Pf Qf col k) r.
(** The unscaled row, with the pivot before regularisation on the diagonal. *)
Definition YX (k j : Z) : R := if (j =? k)%Z then B2R (pivF k) else if inb j (pl k) then B2R (y k j) else 0.

Lemma bcol_nodup k : (0 <= k < n)%Z -> NoDup (map fst (bcol Pf Qf col k)).
Proof.
  intros Hk. unfold bcol. rewrite map_map. cbn [fst].
  pose proof (pf_range _ _ _ HP k Hk) as Hc.
  assert (G : forall l : list (Z * b64), NoDup (map fst l) -> (forall r v, In (r, v) l -> (0 <= r < n)%Z) -> NoDup (map (fun e => Qf (fst e)) l)).
  { induction l as [|[a v] l IH]; intros ND HB; cbn [map fst]; constructor.
    - intros H. apply in_map_iff in H. destruct H as [[a' v'] [E H]]. cbn [fst] in E. inversion ND as [|? ? N1 N2]; subst. apply N1.
      apply in_map_iff. exists (a', v'). split; auto. cbn [fst].
      rewrite <- (pf_qf _ _ _ HP a'), <- (pf_qf _ _ _ HP a), E; auto; eapply HB; simpl; eauto.
    - inversion ND; subst. apply IH; auto. intros; eapply HB; simpl; eauto. }
  apply G; auto. intros r v Hin. eapply HR; eauto.
Qed.

Lemma y0_F k r : (0 <= k < n)%Z -> is_finite (y0 FA col Pf Qf k r) = true -> B2R (y0 FA col Pf Qf k r) = BF r k.
Proof. intros Hk F. apply (scatter_val _ r (bcol_nodup k Hk)). exact F. Qed.

Lemma DF_reg k : (0 <= k < n)%Z -> Dv k = regularize FA (pivF k).
Proof. intros Hk. apply (rs_D _ _ _ _ _ _ _ _ _ _ (HN k Hk)). Qed.

Lemma DF_facts k : (0 <= k < n)%Z -> is_finite (pivF k) = true /\ DF k <> 0 /\ Rabs (B2R (pivF k)) <= Rabs (DF k).
Proof. intros Hk. pose proof (FD k Hk) as F. unfold DF. rewrite (DF_reg k Hk) in *. destruct (reg_F _ F) as [H1 [H2 [H3 _]]]. auto. Qed.

(** Sums over a prefix of the pattern of row k, as sums over the columns before r. *)
Lemma reindex k r l1 l2 (f : Z -> R) : (0 <= k < n)%Z -> (0 <= r < k)%Z -> pl k = l1 ++ r :: l2 ->
  sumr f (filter (fun j => inb j (pl r)) l1) = sumr (fun j => if inb j (pl r) then if inb j (pl k) then f j else 0 else 0) (zr 0 r).
Proof.
  intros Hk Hr E. rewrite Lists.sumr_filter.
  pose proof (fo_topo _ _ _ HF k Hk) as [ND _]. cbv beta in E. rewrite E in ND.
  assert (ND1 : NoDup l1) by (clear -ND; induction l1; [constructor|]; simpl in ND; inversion ND; subst;
    constructor; [intros H; apply H1, in_or_app; auto|auto]).
  rewrite (sumr_inb _ l1 n); auto.
  2:{ intros x Hx. assert (In x (pl k)) by (cbv beta; rewrite E; apply in_or_app; auto).
      apply (pl_in FA n col Pf Qf par HF k x Hk) in H. lia. }
  rewrite (zr_app 0 r n), sumr_app by lia.
  rewrite (sumr_zero _ (zr r n)), Rplus_0_r.
  2:{ intros x Hx. apply in_zr in Hx. destruct (inb x l1); auto. destruct (inb x (pl r)) eqn:I; auto.
      apply inb_true in I. apply (pl_in FA n col Pf Qf par HF r x) in I; lia. }
  apply sumr_ext. intros j Hj. apply in_zr in Hj.
  destruct (inb j (pl r)) eqn:I1; [|destruct (inb j l1); auto].
  destruct (inb j (pl k)) eqn:I2.
  - assert (In j l1).
    { apply inb_true in I1. apply inb_true in I2. cbv beta in I2. rewrite E in I2.
      apply in_app_or in I2. destruct I2 as [I2|[I2|I2]]; auto; [lia|].
      exfalso. apply in_split in I2. destruct I2 as [a1 [a2 Ea]].
      assert (In r a2).
      { apply (topo_between par k (pl k) r (pl r) (l1 ++ r :: a1) j a2); auto.
        - apply (fo_topo _ _ _ HF k Hk).
        - apply (fo_topo _ _ _ HF r). lia.
        - lia.
        - cbv beta. rewrite E, Ea, <- app_assoc. reflexivity. }
      apply NoDup_remove_2 in ND. apply ND. apply in_or_app. right. rewrite Ea. apply in_or_app. simpl. auto. }
    apply inb_true in H. rewrite H. auto.
  - assert (inb j l1 = false).
    { apply inb_false. intros H. apply inb_false in I2. apply I2. cbv beta. rewrite E. apply in_or_app. auto. }
    rewrite H. auto.
Qed.

Lemma LF_upper r j : (0 <= r < n)%Z -> (r < j)%Z -> LF r j = 0.
Proof.
  intros Hr Hj. unfold LF. destruct (Z.eqb_spec r j); [lia|].
  destruct (inb j (pl r)) eqn:I; auto. apply inb_true in I. apply (pl_in FA n col Pf Qf par HF r j) in I; lia.
Qed.

(** A sum weighted by a row of L stops at the diagonal. *)
Lemma LF_sum (a : R -> R) (f : Z -> R) r : a 0 = 0 -> (0 <= r < n)%Z ->
  sumr (fun j => a (LF r j) * f j) (zr 0 n) = sumr (fun j => a (LF r j) * f j) (zr 0 r) + a 1 * f r.
Proof.
  intros Ha Hr. rewrite (zr_app 0 r n), sumr_app, (zr_cons r n) by lia. cbn [sumr].
  rewrite (sumr_zero _ (zr (r + 1) n)).
  - unfold LF at 2. rewrite Z.eqb_refl. lra.
  - intros j Hj. apply in_zr in Hj. rewrite LF_upper by lia. rewrite Ha. lra.
Qed.

Lemma row_err k r : (0 <= r <= k)%Z -> (k < n)%Z ->
  Rabs (BF r k - sumr (fun j => LF r j * YX k j) (zr 0 n)) <=
  (hp N - 1) * sumr (fun j => Rabs (LF r j) * Rabs (YX k j)) (zr 0 n) + hp N * (INR N * eta).
Proof.
  intros Hr Hk. assert (Hk' : (0 <= k < n)%Z) by lia.
  rewrite (LF_sum (fun x => x) (YX k) r), (LF_sum Rabs (fun j => Rabs (YX k j)) r) by (auto using Rabs_R0; lia).
  rewrite Rabs_R1, !Rmult_1_l. pose proof (hp_ge1 N) as G. pose proof eta_pos as T. pose proof (pos_INR N) as IN.
  destruct (Z.eq_dec r k) as [->|Hne].
  - (* the pivot *)
    destruct (DF_facts k Hk') as [Fp _]. unfold pivF, dfold in Fp.
    assert (Ef : fold_left (fun d i => fsub FA d (fmul FA (Lv k i) (y k i))) (pl k) (y0 FA col Pf Qf k k) =
      foldm (map (fun j => (Lv k j, y k j)) (pl k)) (y0 FA col Pf Qf k k)).
    { apply (foldm_all (Lv k) (y k)). }
    cbv beta in Ef. change (car FA) with b64 in *. rewrite Ef in Fp. destruct (foldm_fin _ _ Fp) as [F0 _].
    pose proof (foldm_back_le _ _ N Fp) as B. rewrite map_length in B. cbv beta in B.
    assert (RB0 : forall x, In x (patlist n par (rows k) k) -> (0 <= x < n)%Z) by (intros x Hx; pose proof (pl_in FA n col Pf Qf par HF k x Hk' Hx); lia).
    specialize (B (nodup_len _ _ (pl_nodup FA n col Pf Qf par HF k Hk') RB0)).
    rewrite vals_map, sizes_map in B. rewrite (y0_F k k Hk' F0) in B.
    assert (EY : YX k k = B2R (foldm (map (fun j => (Lv k j, y k j)) (pl k)) (y0 FA col Pf Qf k k))).
    { unfold YX. rewrite Z.eqb_refl. exact (f_equal (fun v : b64 => B2R v) Ef). }
    cbv beta in EY. rewrite <- EY in B.
    assert (ND : NoDup (pl k)) by exact (pl_nodup FA n col Pf Qf par HF k Hk').
    assert (RB : forall x, In x (pl k) -> (0 <= x < k)%Z) by (intros x; apply (pl_in FA n col Pf Qf par HF k x Hk')).
    assert (S1 : sumr (fun j => B2R (Lv k j) * B2R (y k j)) (pl k) = sumr (fun j => LF k j * YX k j) (zr 0 k)).
    { rewrite (sumr_inb _ _ k ND RB). apply sumr_ext. intros j Hj. apply in_zr in Hj. unfold LF, YX.
      destruct (Z.eqb_spec k j); [lia|]. destruct (Z.eqb_spec j k); [lia|]. cbv beta. destruct (inb j (patlist n par (rows k) k)); [reflexivity|ring]. }
    assert (S2 : sumr (fun j => Rabs (B2R (Lv k j)) * Rabs (B2R (y k j))) (pl k) = sumr (fun j => Rabs (LF k j) * Rabs (YX k j)) (zr 0 k)).
    { rewrite (sumr_inb _ _ k ND RB). apply sumr_ext. intros j Hj. apply in_zr in Hj. unfold LF, YX.
      destruct (Z.eqb_spec k j); [lia|]. destruct (Z.eqb_spec j k); [lia|]. cbv beta. destruct (inb j (patlist n par (rows k) k)); [reflexivity|]. rewrite !Rabs_R0. ring. }
    cbv beta in S1, S2. rewrite S1, S2 in B. rewrite Rplus_comm. rewrite (Rplus_comm (sumr _ _) (Rabs _)). rewrite Rplus_comm in B. 
    eapply Rle_trans; [|eapply Rle_trans; [exact B|]]; [right; f_equal; ring|right; ring].
  - destruct (inb r (pl k)) eqn:E.
    + apply inb_true in E. apply in_split in E. destruct E as [l1 [l2 E]].
      pose proof (rs_y _ _ _ _ _ _ _ _ _ _ (HN k Hk') _ _ _ E) as Ey. unfold yfold in Ey.
      change (car FA) with b64 in *. rewrite (foldm_cond (fun j => inb j (pl r)) (Lv r) (y k)) in Ey.
      assert (Hin : In r (pl k)) by (cbv beta in *; rewrite E; apply in_elt).
      assert (Fy : is_finite (y k r) = true).
      { pose proof (rs_L _ _ _ _ _ _ _ _ _ _ (HN k Hk') r Hin) as Q. cbn [fdiv FA] in Q. injection Q as Q.
        destruct (DF_facts r ltac:(lia)) as [_ [ND _]].
        apply (div_back (y k r) (Dv r)); [rewrite Q; apply FL; auto|apply FD; lia|exact ND]. }
      rewrite Ey in Fy. destruct (foldm_fin _ _ Fy) as [F0 _].
      pose proof (foldm_back_le _ _ N Fy) as B. rewrite map_length in B. 
      assert (ND1 : NoDup (filter (fun j => inb j (pl r)) l1)).
      { apply NoDup_filter. assert (ND : NoDup (pl k)) by exact (pl_nodup FA n col Pf Qf par HF k Hk'). cbv beta in E, ND. rewrite E in ND. clear -ND.
        induction l1; [constructor|]; simpl in ND; inversion ND; subst; constructor; [intros H; apply H1, in_or_app; auto|auto]. }
      assert (RB : forall x, In x (filter (fun j => inb j (pl r)) l1) -> (0 <= x < n)%Z).
      { intros x Hx. apply filter_In in Hx. destruct Hx as [Hx _]. assert (In x (pl k)) as H by (cbv beta in *; rewrite E; apply in_or_app; auto).
        apply (pl_in FA n col Pf Qf par HF k x Hk') in H. lia. }
      specialize (B (nodup_len _ _ ND1 RB)). rewrite <- Ey, vals_map, sizes_map in B.
      rewrite (y0_F k r Hk' F0) in B. rewrite !(reindex k r l1 l2) in B by (auto; lia).
      assert (EY : YX k r = B2R (y k r)).
      { unfold YX. destruct (Z.eqb_spec r k); [lia|]. apply inb_true in Hin. rewrite Hin. auto. }
      rewrite <- EY in B.
      rewrite (sumr_ext _ (fun j => LF r j * YX k j) (zr 0 r)) in B.
      2:{ intros j Hj. apply in_zr in Hj. unfold LF, YX. destruct (Z.eqb_spec r j); [lia|]. destruct (Z.eqb_spec j k); [lia|].
          destruct (inb j (pl r)), (inb j (pl k)); lra. }
      rewrite (sumr_ext (fun j => if inb j (pl r) then _ else 0) (fun j => Rabs (LF r j) * Rabs (YX k j)) (zr 0 r)) in B.
      2:{ intros j Hj. apply in_zr in Hj. unfold LF, YX. destruct (Z.eqb_spec r j); [lia|]. destruct (Z.eqb_spec j k); [lia|].
          destruct (inb j (pl r)), (inb j (pl k)); rewrite ?Rabs_R0; lra. }
      eapply Rle_trans; [|eapply Rle_trans; [exact B|]]; [right; f_equal; ring|right; ring].
    + (* outside the pattern everything is zero *)
      assert (EY : YX k r = 0) by (unfold YX; destruct (Z.eqb_spec r k); [lia|]; rewrite E; auto).
      apply inb_false in E.
      assert (Z1 : forall j, (0 <= j < r)%Z -> LF r j = 0 \/ YX k j = 0).
      { intros j Hj. unfold LF, YX. destruct (Z.eqb_spec r j); [lia|]. destruct (Z.eqb_spec j k); [lia|].
        destruct (inb j (pl r)) eqn:I1; auto. destruct (inb j (pl k)) eqn:I2; auto.
        exfalso. apply inb_true in I1. apply inb_true in I2. apply E. apply in_split in I2. destruct I2 as [a1 [a2 Ea]].
        assert (In r a2).
        { apply (topo_between par k (pl k) r (pl r) a1 j a2); auto.
          - apply (fo_topo _ _ _ HF k Hk').
          - apply (fo_topo _ _ _ HF r). lia.
          - lia. }
        cbv beta in *. rewrite Ea. apply in_or_app. simpl. auto. }
      assert (EB : BF r k = 0).
      { unfold BF, entB. apply ent_out. intros r' v Hin E'. subst r'. apply E.
        apply in_map_iff in Hin. destruct Hin as [e [Ee Hin]]. injection Ee as E1 _.
        apply patlist_covers; auto.
        - intros x Hx. unfold brows in Hx. apply in_map_iff in Hx. destruct Hx as [[r0 v0] [<- Hx]].
          apply (qf_range _ _ _ HP). simpl. eapply HR; [|exact Hx]. apply (pf_range _ _ _ HP). auto.
        - apply (fo_topo _ _ _ HF k Hk').
        - unfold bcol in Hin. apply in_map_iff in Hin. destruct Hin as [e' [Ee He]]. subst e. cbn [fst] in E1. subst r.
          unfold brows. apply in_map_iff. exists e'. auto.
        - lia. }
      rewrite EB, EY, (sumr_zero (fun j => LF r j * YX k j)), (sumr_zero (fun j => Rabs (LF r j) * Rabs (YX k j))).
      * rewrite Rabs_R0, Rplus_0_r, Rminus_0_r, Rabs_R0. assert (0 <= hp N * (INR N * eta)) by (repeat apply Rmult_le_pos; lra). lra.
      * intros j Hj. apply in_zr in Hj. destruct (Z1 j Hj) as [-> | ->]; rewrite Rabs_R0; lra.
      * intros j Hj. apply in_zr in Hj. destruct (Z1 j Hj) as [-> | ->]; lra.
Qed.

(** One unscaled entry and the scaled one. *)
Lemma YX_err k j : (0 <= k < n)%Z -> (0 <= j <= k)%Z ->
  Rabs (YX k j - (DF j * LF k j - (if (j =? k)%Z then EF k else 0))) <= (hh - 1) * (Rabs (DF j) * Rabs (LF k j)) + hh * eta * Rabs (DF j) /\
  Rabs (YX k j) <= hh * (Rabs (DF j) * Rabs (LF k j)) + hh * eta * Rabs (DF j).
Proof.
  intros Hk Hj. pose proof hh_ge. pose proof uu_pos. pose proof eta_pos.
  assert (P : forall a b, 0 <= hh * eta * Rabs a /\ 0 <= Rabs a * Rabs b) by (intros; split; repeat apply Rmult_le_pos; try apply Rabs_pos; lra).
  destruct (DF_facts k Hk) as [_ [_ Hp]]. unfold YX, LF. rewrite (Z.eqb_sym k j). destruct (Z.eqb_spec j k) as [->|Hne].
  - destruct (P (DF k) 1). unfold EF. replace (B2R (pivF k) - (DF k * 1 - (DF k - B2R (pivF k)))) with 0 by ring. rewrite Rabs_R0.
    rewrite Rabs_R1, Rmult_1_r in *. split; [|nra]. assert (0 <= (hh - 1) * Rabs (DF k)) by (apply Rmult_le_pos; lra). lra.
  - destruct (inb j (pl k)) eqn:I.
    + apply inb_true in I. pose proof (rs_L _ _ _ _ _ _ _ _ _ _ (HN k Hk) j I) as Q. cbn [fdiv FA] in Q. injection Q as Q.
      destruct (DF_facts j ltac:(lia)) as [_ [ND _]].
      destruct (div_back (y k j) (Dv j)) as [_ B]; [rewrite Q; apply FL; auto|apply FD; lia|exact ND|]. rewrite Q in B. fold (DF j) in B.
      assert (B' : Rabs (B2R (y k j) - DF j * B2R (Lv k j)) <= (hh - 1) * (Rabs (DF j) * Rabs (B2R (Lv k j))) + hh * eta * Rabs (DF j)).
      { rewrite (Rmult_comm (DF j)), (Rmult_comm (Rabs (DF j)) (Rabs (B2R (Lv k j)))). exact B. }
      rewrite Rminus_0_r. split; [exact B'|]. 
      replace (B2R (y k j)) with ((B2R (y k j) - DF j * B2R (Lv k j)) + DF j * B2R (Lv k j)) by ring.
      eapply Rle_trans; [apply Rabs_triang|]. rewrite (Rabs_mult (DF j)). lra.
    + destruct (P (DF j) 0). rewrite Rmult_0_r, !Rminus_0_r, Rabs_R0, Rmult_0_r. split; lra.
Qed.

(** ** The factorisation *)

Definition WF (r k : Z) : R := sumr (fun j => Rabs (LF r j) * Rabs (DF j) * Rabs (LF k j)) (zr 0 n).
Definition RF (r : Z) : R := sumr (fun j => Rabs (LF r j) * Rabs (DF j)) (zr 0 n).

Lemma fact_err k r : (0 <= r <= k)%Z -> (k < n)%Z ->
  Rabs (BF r k + (if (r =? k)%Z then EF k else 0) - sumr (fun j => LF r j * DF j * LF k j) (zr 0 n)) <=
  (hp (S N) - 1) * WF r k + hp (S N) * eta * (INR N + RF r).
Proof.
  intros Hr Hk. pose proof (row_err k r Hr Hk) as B. pose proof hh_ge as G1. pose proof (hp_ge1 N) as G2. pose proof uu_pos as U. pose proof eta_pos as T.
  pose proof (pos_INR N) as IN.
  set (Zk := fun j => DF j * LF k j - (if (j =? k)%Z then EF k else 0)).
  assert (E1 : sumr (fun j => LF r j * Zk j) (zr 0 n) = sumr (fun j => LF r j * DF j * LF k j) (zr 0 n) - (if (r =? k)%Z then EF k else 0)).
  { rewrite (sumr_ext _ (fun j => LF r j * DF j * LF k j - (if (j =? k)%Z then LF r j * EF k else 0)) (zr 0 n)).
    2:{ intros j Hj. unfold Zk. destruct (j =? k)%Z; ring. }
    rewrite sumr_minus. f_equal. rewrite (sumr_delta k (fun j => LF r j * EF k)); [|apply NoDup_zr|apply in_zr; lia].
    destruct (Z.eqb_spec r k) as [->|Hne]; [unfold LF; rewrite Z.eqb_refl; ring|rewrite LF_upper by lia; ring]. }
  assert (C1 : Rabs (sumr (fun j => LF r j * YX k j) (zr 0 n) - sumr (fun j => LF r j * Zk j) (zr 0 n)) <= (hh - 1) * WF r k + hh * eta * RF r).
  { rewrite <- sumr_minus. eapply Rle_trans; [apply sumr_abs|].
    eapply Rle_trans; [apply sumr_le with (g := fun j => (hh - 1) * (Rabs (LF r j) * Rabs (DF j) * Rabs (LF k j)) + hh * eta * (Rabs (LF r j) * Rabs (DF j)))|].
    2:{ rewrite sumr_plus, !sumr_scal. apply Rle_refl. }
    intros j Hj. apply in_zr in Hj. rewrite <- Rmult_minus_distr_l, Rabs_mult. destruct (Z_le_gt_dec j r) as [Hjr|Hjr].
    - destruct (YX_err k j ltac:(lia) ltac:(lia)) as [Q _]. fold (Zk j) in Q. apply (Rmult_le_compat_l (Rabs (LF r j))) in Q; [|apply Rabs_pos]. lra.
    - rewrite (LF_upper r j) by lia. rewrite Rabs_R0. lra. }
  assert (C2 : sumr (fun j => Rabs (LF r j) * Rabs (YX k j)) (zr 0 n) <= hh * WF r k + hh * eta * RF r).
  { eapply Rle_trans; [apply sumr_le with (g := fun j => hh * (Rabs (LF r j) * Rabs (DF j) * Rabs (LF k j)) + hh * eta * (Rabs (LF r j) * Rabs (DF j)))|].
    2:{ rewrite sumr_plus, !sumr_scal. apply Rle_refl. }
    intros j Hj. apply in_zr in Hj. destruct (Z_le_gt_dec j r) as [Hjr|Hjr].
    - destruct (YX_err k j ltac:(lia) ltac:(lia)) as [_ Q]. apply (Rmult_le_compat_l (Rabs (LF r j))) in Q; [|apply Rabs_pos]. lra.
    - rewrite (LF_upper r j) by lia. rewrite Rabs_R0. lra. }
  replace (BF r k + (if (r =? k)%Z then EF k else 0) - sumr (fun j => LF r j * DF j * LF k j) (zr 0 n)) with
    ((BF r k - sumr (fun j => LF r j * YX k j) (zr 0 n)) + (sumr (fun j => LF r j * YX k j) (zr 0 n) - sumr (fun j => LF r j * Zk j) (zr 0 n)))
    by (rewrite E1; ring).
  eapply Rle_trans; [apply Rabs_triang|]. eapply Rle_trans; [apply Rplus_le_compat; [exact B|exact C1]|].
  apply (Rmult_le_compat_l (hp N - 1)) in C2; [|lra]. rewrite hp_S.
  assert (hp N * (INR N * eta) <= hh * hp N * eta * INR N).
  { replace (hh * hp N * eta * INR N) with (hh * (hp N * (INR N * eta))) by ring. rewrite <- (Rmult_1_l (hp N * (INR N * eta))) at 1.
    apply Rmult_le_compat_r; [repeat apply Rmult_le_pos; lra|lra]. }
  lra.
Qed.

(** ** The solves *)

Definition lcB : cols b64 := lcol FA n col Pf Qf par Lv.

Lemma fold_hit {T} (f : T -> T) (r : Z) l : NoDup l -> forall acc,
  fold_left (fun acc i => if (i =? r)%Z then f acc else acc) l acc = if inb r l then f acc else acc.
Proof.
  induction l as [|x l IH]; intros ND acc; cbn [fold_left]; [reflexivity|]. inversion ND as [|? ? N1 N2]; subst. rewrite IH by auto.
  destruct (Z.eqb_spec x r) as [->|Hne].
  - apply inb_false in N1. rewrite N1. assert (E : inb r (r :: l) = true) by (apply inb_true; simpl; auto). rewrite E. reflexivity.
  - assert (E : inb r (x :: l) = inb r l).
    { destruct (inb r l) eqn:I; [apply inb_true; apply inb_true in I; simpl; auto|apply inb_false; apply inb_false in I; simpl; tauto]. }
    rewrite E. reflexivity.
Qed.

Lemma lstep_F j xj r acc : (0 <= r < n)%Z -> lstep FA (lcB j) xj r acc = if inb j (pl r) then fsub FA acc (fmul FA (Lv r j) xj) else acc.
Proof.
  intros Hr. unfold lstep, lcB, lcol. 
  assert (E : forall l acc, fold_left (fun acc e => if (fst e =? r)%Z then fsub FA acc (fmul FA (snd e) xj) else acc) (map (fun r0 => (r0, Lv r0 j)) l) acc =
    fold_left (fun acc i => if (i =? r)%Z then fsub FA acc (fmul FA (Lv r j) xj) else acc) l acc).
  { clear acc. induction l as [|x l IH]; intros acc; cbn [fold_left map fst snd]; [reflexivity|]. rewrite IH. destruct (Z.eqb_spec x r); subst; reflexivity. }
  eapply eq_trans; [apply E|]. rewrite (fold_hit (fun acc => fsub FA acc (fmul FA (Lv r j) xj)) r) by apply NoDup_lrows.
  destruct (inb j (pl r)) eqn:I.
  - apply inb_true in I. assert (H : In r (lrows FA n col Pf Qf par n j)) by (apply in_lrows; auto). apply inb_true in H. rewrite H. reflexivity.
  - apply inb_false in I. assert (H : ~ In r (lrows FA n col Pf Qf par n j)) by (rewrite in_lrows; tauto). apply inb_false in H. rewrite H. reflexivity.
Qed.

Lemma lsolveB_succ m b r : (0 <= m)%Z -> (0 <= r < n)%Z ->
  lsolveF FA lcB (m + 1) b r = if inb m (pl r) then fsub FA (lsolveF FA lcB m b r) (fmul FA (Lv r m) (lsolveF FA lcB m b m)) else lsolveF FA lcB m b r.
Proof. intros Hm Hr. unfold lsolveF. rewrite zr_snoc, fold_left_app by lia. cbn [fold_left]. apply lstep_F. auto. Qed.

Lemma lsolveB_stable b r m : (0 <= r < n)%Z -> (r <= m)%Z -> (m <= n)%Z -> lsolveF FA lcB m b r = lsolveF FA lcB r b r.
Proof.
  intros Hr. revert m. apply (zr_ind (fun m => (m <= n)%Z -> lsolveF FA lcB m b r = lsolveF FA lcB r b r)); auto.
  intros k Hk IH Hkn. rewrite lsolveB_succ by lia. destruct (inb k (pl r)) eqn:I; [|apply IH; lia].
  apply inb_true in I. apply (pl_in FA n col Pf Qf par HF r k) in I; lia.
Qed.

Lemma lsolveB_terms b r : (0 <= r < n)%Z ->
  let x := lsolveF FA lcB n b in x r = foldm (map (fun j => (Lv r j, x j)) (filter (fun j => inb j (pl r)) (zr 0 r))) (b r).
Proof.
  intros Hr x.
  assert (G : forall m, (0 <= m)%Z -> (m <= r)%Z -> lsolveF FA lcB m b r = foldm (map (fun j => (Lv r j, x j)) (filter (fun j => inb j (pl r)) (zr 0 m))) (b r)).
  { apply (zr_ind (fun m => (m <= r)%Z -> lsolveF FA lcB m b r = foldm (map (fun j => (Lv r j, x j)) (filter (fun j => inb j (pl r)) (zr 0 m))) (b r))).
    - intros _. reflexivity.
    - intros m Hm IH Hmr. rewrite lsolveB_succ, IH by lia. rewrite zr_snoc, filter_app, map_app, foldm_app by lia. cbn [filter].
      assert (Ex : lsolveF FA lcB m b m = x m) by (unfold x; symmetry; apply lsolveB_stable; lia). rewrite Ex.
      destruct (inb m (pl r)); reflexivity. }
  unfold x at 1. rewrite (lsolveB_stable b r n) by lia. apply G; lia.
Qed.

Lemma ltsolveB_succ m b r : (0 <= m)%Z ->
  ltsolveF FA lcB n (m + 1) b r =
  if (r =? n - 1 - m)%Z then ltstep FA (lcB r) (ltsolveF FA lcB n m b) (ltsolveF FA lcB n m b r) else ltsolveF FA lcB n m b r.
Proof. intros Hm. unfold ltsolveF. rewrite zr_snoc, fold_left_app by lia. reflexivity. Qed.

Lemma ltsolveB_before b r m : (0 <= m)%Z -> (m <= n - 1 - r)%Z -> ltsolveF FA lcB n m b r = b r.
Proof.
  revert m. apply (zr_ind (fun m => (m <= n - 1 - r)%Z -> ltsolveF FA lcB n m b r = b r)).
  - intros _. reflexivity.
  - intros m Hm IH Hr. rewrite ltsolveB_succ by lia. destruct (Z.eqb_spec r (n - 1 - m)); [lia|]. apply IH; lia.
Qed.

Lemma ltsolveB_after b r m : (0 <= r < n)%Z -> (n - r <= m)%Z -> ltsolveF FA lcB n m b r = ltsolveF FA lcB n (n - r) b r.
Proof.
  intros Hr. revert m. apply (zr_ind (fun m => ltsolveF FA lcB n m b r = ltsolveF FA lcB n (n - r) b r)); auto.
  intros m Hm IH. rewrite ltsolveB_succ by lia. destruct (Z.eqb_spec r (n - 1 - m)); [lia|]. auto.
Qed.

Lemma ltsolveB_terms v j : (0 <= j < n)%Z ->
  let w := ltsolveF FA lcB n n v in w j = foldm (map (fun r => (Lv r j, w r)) (lrows FA n col Pf Qf par n j)) (v j).
Proof.
  intros Hj w. unfold w at 1. rewrite (ltsolveB_after v j n) by lia.
  replace (n - j)%Z with ((n - 1 - j) + 1)%Z by lia. rewrite ltsolveB_succ by lia.
  destruct (Z.eqb_spec j (n - 1 - (n - 1 - j))); [|lia].
  rewrite ltsolveB_before by lia. unfold ltstep, lcB, lcol, foldm.
  assert (G : forall l acc, (forall r, In r l -> (j < r < n)%Z) ->
    fold_left (fun acc e => fsub FA acc (fmul FA (snd e) (ltsolveF FA lcB n (n - 1 - j) v (fst e)))) (map (fun r => (r, Lv r j)) l) acc =
    fold_left (fun acc t => fsub FA acc (fmul FA (fst t) (snd t))) (map (fun r => (Lv r j, w r)) l) acc).
  { induction l as [|r l IH]; intros acc HB; cbn [map fold_left fst snd]; [reflexivity|].
    assert (E : ltsolveF FA lcB n (n - 1 - j) v r = w r).
    { unfold w. pose proof (HB r ltac:(simpl; auto)). rewrite (ltsolveB_after v r n), (ltsolveB_after v r (n - 1 - j)) by lia. reflexivity. }
    rewrite E. apply IH. intros; apply HB; simpl; auto. }
  apply G. intros r Hr. apply in_lrows in Hr. destruct Hr as [Hr I]. apply (pl_in FA n col Pf Qf par HF r j Hr) in I. lia.
Qed.

Section Solve.
Variable b : Z -> b64.
Definition xs : Z -> b64 := lsolveF FA lcB n b.
Definition vs : Z -> b64 := dsolveF FA xs Dv.
Definition ws : Z -> b64 := ltsolveF FA lcB n n vs.
Hypothesis Fw : forall k, (0 <= k < n)%Z -> is_finite (ws k) = true.

Lemma back_err j : (0 <= j < n)%Z -> is_finite (vs j) = true /\
  Rabs (B2R (vs j) - sumr (fun k => LF k j * B2R (ws k)) (zr 0 n)) <=
  (hp N - 1) * sumr (fun k => Rabs (LF k j) * Rabs (B2R (ws k))) (zr 0 n) + hp N * (INR N * eta).
Proof.
  intros Hj. pose proof (ltsolveB_terms vs j Hj) as E. cbv zeta in E. fold ws in E. pose proof (Fw j Hj) as F.
  assert (E' : ws j = foldm (map (fun r => (Lv r j, ws r)) (lrows FA n col Pf Qf par n j)) (vs j)) by exact E.
  rewrite E' in F. destruct (foldm_fin _ _ F) as [F0 _]. split; [exact F0|].
  assert (RB : forall x, In x (lrows FA n col Pf Qf par n j) -> (0 <= x < n)%Z) by (intros x Hx; apply in_lrows in Hx; tauto).
  pose proof (foldm_back_le _ _ N F) as B. rewrite map_length in B.
  specialize (B (nodup_len _ _ (NoDup_lrows FA n col Pf Qf par n j) RB)). rewrite <- E', vals_map, sizes_map in B.
  assert (S : forall f : Z -> R, sumr f (lrows FA n col Pf Qf par n j) = sumr (fun k => if (k =? j)%Z then 0 else if inb j (pl k) then f k else 0) (zr 0 n)).
  { intros f. rewrite (sumr_inb f _ n); [|apply NoDup_lrows|exact RB]. apply sumr_ext. intros k Hk. apply in_zr in Hk.
    destruct (inb k (lrows FA n col Pf Qf par n j)) eqn:I.
    - apply inb_true, in_lrows in I. destruct I as [_ I]. pose proof (pl_in FA n col Pf Qf par HF k j Hk I). destruct (Z.eqb_spec k j); [lia|].
      apply inb_true in I. change (car FA) with b64 in I. cbv beta in I |- *. rewrite I. reflexivity.
    - apply inb_false in I. destruct (Z.eqb_spec k j); auto. destruct (inb j (pl k)) eqn:I2; auto. exfalso. apply I. apply in_lrows. split; auto. apply inb_true. exact I2. }
  rewrite !S in B.
  assert (S1 : forall a : R -> R, a 0 = 0 -> a 1 = 1 -> sumr (fun k => a (LF k j) * a (B2R (ws k))) (zr 0 n) =
    a (B2R (ws j)) + sumr (fun k => if (k =? j)%Z then 0 else if inb j (pl k) then a (B2R (Lv k j)) * a (B2R (ws k)) else 0) (zr 0 n)).
  { intros a A0 A1. rewrite <- (sumr_delta j (fun k => a (B2R (ws k))) (zr 0 n)); [|apply NoDup_zr|apply in_zr; auto].
    rewrite <- sumr_plus. apply sumr_ext. intros k Hk. unfold LF. destruct (Z.eqb_spec k j) as [->|].
    - rewrite A1. ring.
    - cbv beta. destruct (inb j _); [ring|]. rewrite A0. ring. }
  rewrite (S1 (fun x => x)), (S1 Rabs) by auto using Rabs_R0, Rabs_R1. exact B.
Qed.

Lemma diag_err j : (0 <= j < n)%Z -> is_finite (xs j) = true /\
  Rabs (B2R (xs j) - DF j * B2R (vs j)) <= (hh - 1) * (Rabs (DF j) * Rabs (B2R (vs j))) + hh * eta * Rabs (DF j).
Proof.
  intros Hj. destruct (back_err j Hj) as [F _]. destruct (DF_facts j Hj) as [_ [ND _]].
  assert (E : vs j = b64_div (xs j) (Dv j)) by reflexivity. rewrite E in F.
  destruct (div_back (xs j) (Dv j) F (FD j Hj) ND) as [H1 H2]. split; auto. rewrite <- E in H2. fold (DF j) in H2.
  rewrite (Rmult_comm (DF j)), (Rmult_comm (Rabs (DF j)) (Rabs (B2R (vs j)))). exact H2.
Qed.

Lemma fwd_err r : (0 <= r < n)%Z -> is_finite (b r) = true /\
  Rabs (B2R (b r) - sumr (fun j => LF r j * B2R (xs j)) (zr 0 n)) <=
  (hp N - 1) * sumr (fun j => Rabs (LF r j) * Rabs (B2R (xs j))) (zr 0 n) + hp N * (INR N * eta).
Proof.
  intros Hr. destruct (diag_err r Hr) as [F _]. pose proof (lsolveB_terms b r Hr) as E. cbv zeta in E. fold xs in E.
  assert (E' : xs r = foldm (map (fun j => (Lv r j, xs j)) (filter (fun j => inb j (pl r)) (zr 0 r))) (b r)) by exact E.
  rewrite E' in F. destruct (foldm_fin _ _ F) as [F0 _]. split; [exact F0|].
  assert (RB : forall x, In x (filter (fun j => inb j (pl r)) (zr 0 r)) -> (0 <= x < n)%Z).
  { intros x Hx. apply filter_In in Hx. destruct Hx as [Hx _]. apply in_zr in Hx. lia. }
  pose proof (foldm_back_le _ _ N F) as B. rewrite map_length in B.
  specialize (B (nodup_len _ _ (NoDup_filter _ (NoDup_zr 0 r)) RB)). rewrite <- E', vals_map, sizes_map, !Lists.sumr_filter in B.
  rewrite (LF_sum (fun x => x) (fun j => B2R (xs j)) r), (LF_sum Rabs (fun j => Rabs (B2R (xs j))) r) by auto using Rabs_R0.
  rewrite Rabs_R1, !Rmult_1_l.
  rewrite (sumr_ext (fun x => if inb x (pl r) then B2R (Lv r x) * B2R (xs x) else 0) (fun j => LF r j * B2R (xs j))) in B.
  2:{ intros j Hj. apply in_zr in Hj. unfold LF. destruct (Z.eqb_spec r j); [lia|]. cbv beta. destruct (inb j _); ring. }
  rewrite (sumr_ext (fun x => if inb x (pl r) then Rabs (B2R (Lv r x)) * Rabs (B2R (xs x)) else 0) (fun j => Rabs (LF r j) * Rabs (B2R (xs j)))) in B.
  2:{ intros j Hj. apply in_zr in Hj. unfold LF. destruct (Z.eqb_spec r j); [lia|]. cbv beta. destruct (inb j _); [ring|]. rewrite Rabs_R0. ring. }
  eapply Rle_trans; [|eapply Rle_trans; [exact B|]]; [right; f_equal; ring|right; ring].
Qed.

Definition VF (j : Z) : R := sumr (fun k => Rabs (LF k j) * Rabs (B2R (ws k))) (zr 0 n).

(** The three solves together. *)
Lemma solve_err r : (0 <= r < n)%Z ->
  Rabs (B2R (b r) - sumr (fun k => sumr (fun j => LF r j * DF j * LF k j) (zr 0 n) * B2R (ws k)) (zr 0 n)) <=
  (hp (S (N + N)) - 1) * sumr (fun k => WF r k * Rabs (B2R (ws k))) (zr 0 n) + hp (S (N + N)) * eta * (INR N + 1) * (1 + RF r).
Proof.
  intros Hr. destruct (fwd_err r Hr) as [_ F]. pose proof hh_ge as G1. pose proof (hp_ge1 N) as G2. pose proof uu_pos as U. pose proof eta_pos as T.
  pose proof (pos_INR N) as IN. set (t := hp N * (INR N * eta)) in *.
  assert (Ht : 0 <= t) by (unfold t; repeat apply Rmult_le_pos; lra).
  set (Sj := fun j => sumr (fun k => LF k j * B2R (ws k)) (zr 0 n)).
  assert (E1 : sumr (fun k => sumr (fun j => LF r j * DF j * LF k j) (zr 0 n) * B2R (ws k)) (zr 0 n) = sumr (fun j => LF r j * (DF j * Sj j)) (zr 0 n)).
  { rewrite (sumr_ext _ (fun k => sumr (fun j => LF r j * DF j * (LF k j * B2R (ws k))) (zr 0 n)) (zr 0 n)).
    2:{ intros k _. rewrite <- sumr_scal_r. apply sumr_ext. intros; ring. }
    rewrite sumr_swap. apply sumr_ext. intros j _. rewrite sumr_scal. unfold Sj. ring. }
  assert (E2 : sumr (fun k => WF r k * Rabs (B2R (ws k))) (zr 0 n) = sumr (fun j => Rabs (LF r j) * Rabs (DF j) * VF j) (zr 0 n)).
  { unfold WF, VF. rewrite (sumr_ext _ (fun k => sumr (fun j => Rabs (LF r j) * Rabs (DF j) * (Rabs (LF k j) * Rabs (B2R (ws k)))) (zr 0 n)) (zr 0 n)).
    2:{ intros k _. rewrite <- sumr_scal_r. apply sumr_ext. intros; ring. }
    rewrite sumr_swap. apply sumr_ext. intros j _. rewrite sumr_scal. ring. }
  assert (VP : forall j, 0 <= VF j) by (intros; apply sumr_nonneg; intros; apply Rmult_le_pos; apply Rabs_pos).
  assert (HS : forall j, Rabs (Sj j) <= VF j).
  { intros j. unfold Sj, VF. eapply Rle_trans; [apply sumr_abs|]. apply sumr_le. intros k _. rewrite Rabs_mult. lra. }
  set (c := hh * t + hh * eta).
  assert (P1 : forall j, (0 <= j < n)%Z -> Rabs (B2R (xs j) - DF j * Sj j) <= Rabs (DF j) * ((hh * hp N - 1) * VF j + c) /\
     Rabs (B2R (xs j)) <= Rabs (DF j) * (hh * hp N * VF j + c)).
  { intros j Hj. destruct (back_err j Hj) as [_ Bj]. destruct (diag_err j Hj) as [_ Dj]. fold (Sj j) in Bj. fold (VF j) in Bj. fold t in Bj.
    pose proof (HS j) as HSj. pose proof (Rabs_pos (DF j)) as PD.
    assert (Hv : Rabs (B2R (vs j)) <= hp N * VF j + t).
    { replace (B2R (vs j)) with ((B2R (vs j) - Sj j) + Sj j) by ring. eapply Rle_trans; [apply Rabs_triang|]. lra. }
    assert (Q : Rabs (B2R (xs j) - DF j * Sj j) <= Rabs (DF j) * ((hh * hp N - 1) * VF j + c)).
    { replace (B2R (xs j) - DF j * Sj j) with ((B2R (xs j) - DF j * B2R (vs j)) + DF j * (B2R (vs j) - Sj j)) by ring.
      eapply Rle_trans; [apply Rabs_triang|]. rewrite Rabs_mult. unfold c.
      apply (Rmult_le_compat_l (Rabs (DF j))) in Bj; auto.
      assert ((hh - 1) * (Rabs (DF j) * Rabs (B2R (vs j))) <= (hh - 1) * (Rabs (DF j) * (hp N * VF j + t))).
      { apply Rmult_le_compat_l; [lra|]. apply Rmult_le_compat_l; auto. }
      lra. }
    split; auto. replace (B2R (xs j)) with ((B2R (xs j) - DF j * Sj j) + DF j * Sj j) by ring.
    eapply Rle_trans; [apply Rabs_triang|]. rewrite Rabs_mult. apply (Rmult_le_compat_l (Rabs (DF j))) in HSj; auto. lra. }
  assert (C1 : Rabs (sumr (fun j => LF r j * B2R (xs j)) (zr 0 n) - sumr (fun j => LF r j * (DF j * Sj j)) (zr 0 n)) <=
    (hh * hp N - 1) * sumr (fun j => Rabs (LF r j) * Rabs (DF j) * VF j) (zr 0 n) + c * RF r).
  { rewrite <- sumr_minus. eapply Rle_trans; [apply sumr_abs|].
    eapply Rle_trans; [apply sumr_le with (g := fun j => (hh * hp N - 1) * (Rabs (LF r j) * Rabs (DF j) * VF j) + c * (Rabs (LF r j) * Rabs (DF j)))|].
    2:{ rewrite sumr_plus, !sumr_scal. apply Rle_refl. }
    intros j Hj. apply in_zr in Hj. rewrite <- Rmult_minus_distr_l, Rabs_mult. destruct (P1 j Hj) as [Q _].
    apply (Rmult_le_compat_l (Rabs (LF r j))) in Q; [|apply Rabs_pos]. lra. }
  assert (C2 : sumr (fun j => Rabs (LF r j) * Rabs (B2R (xs j))) (zr 0 n) <=
    hh * hp N * sumr (fun j => Rabs (LF r j) * Rabs (DF j) * VF j) (zr 0 n) + c * RF r).
  { eapply Rle_trans; [apply sumr_le with (g := fun j => hh * hp N * (Rabs (LF r j) * Rabs (DF j) * VF j) + c * (Rabs (LF r j) * Rabs (DF j)))|].
    2:{ rewrite sumr_plus, !sumr_scal. apply Rle_refl. }
    intros j Hj. apply in_zr in Hj. destruct (P1 j Hj) as [_ Q]. apply (Rmult_le_compat_l (Rabs (LF r j))) in Q; [|apply Rabs_pos]. lra. }
  rewrite E1, E2. set (M := sumr (fun j => Rabs (LF r j) * Rabs (DF j) * VF j) (zr 0 n)) in *.
  assert (RP : 0 <= RF r) by (apply sumr_nonneg; intros; apply Rmult_le_pos; apply Rabs_pos).
  replace (B2R (b r) - sumr (fun j => LF r j * (DF j * Sj j)) (zr 0 n)) with
    ((B2R (b r) - sumr (fun j => LF r j * B2R (xs j)) (zr 0 n)) + (sumr (fun j => LF r j * B2R (xs j)) (zr 0 n) - sumr (fun j => LF r j * (DF j * Sj j)) (zr 0 n))) by ring.
  eapply Rle_trans; [apply Rabs_triang|]. eapply Rle_trans; [apply Rplus_le_compat; [exact F|exact C1]|].
  apply (Rmult_le_compat_l (hp N - 1)) in C2; [|lra]. rewrite hp_S, hp_add.
  set (H := hh * (hp N * hp N)). assert (GH : hp N <= H) by (unfold H; nra).
  assert (TT : t <= H * eta * (INR N + 1)).
  { unfold t. replace (hp N * (INR N * eta)) with (hp N * (eta * INR N)) by ring. replace (H * eta * (INR N + 1)) with (H * (eta * (INR N + 1))) by ring.
    apply Rmult_le_compat; [lra|apply Rmult_le_pos; lra|lra|apply Rmult_le_compat_l; lra]. }
  assert (CC : hp N * c <= H * eta * (INR N + 1)).
  { unfold c, H, t. replace (hp N * (hh * (hp N * (INR N * eta)) + hh * eta)) with (hh * (hp N * hp N) * eta * INR N + hh * hp N * eta) by ring.
    assert (hh * hp N * eta <= hh * (hp N * hp N) * eta) by (apply Rmult_le_compat_r; [lra|]; apply Rmult_le_compat_l; [lra|]; nra). lra. }
  apply (Rmult_le_compat_r (RF r)) in CC; auto. unfold H in *. lra.
Qed.

(** Factorisation and solve together, in the elimination order, for a symmetric matrix. *)
Hypothesis Hsym : forall i j, (0 <= i < n)%Z -> (0 <= j < n)%Z -> BF i j = BF j i.

Lemma total_err r : (0 <= r < n)%Z ->
  Rabs (B2R (b r) - (sumr (fun k => BF r k * B2R (ws k)) (zr 0 n) + EF r * B2R (ws r))) <=
  (hp (S (N + N)) - 1 + (hp (S N) - 1)) * sumr (fun k => WF r k * Rabs (B2R (ws k))) (zr 0 n) +
  hp (S (N + N)) * eta * (INR N + 1) * (1 + RF r + sumr (fun k => (1 + RF r + RF k) * Rabs (B2R (ws k))) (zr 0 n)).
Proof.
  intros Hr. pose proof (solve_err r Hr) as S. pose proof eta_pos as T. pose proof (pos_INR N) as IN.
  pose proof (hp_mono (Datatypes.S N) (Datatypes.S (N + N)) ltac:(lia)) as GM. pose proof (hp_ge1 (Datatypes.S N)) as G1.
  assert (RP : forall k, 0 <= RF k) by (intros; apply sumr_nonneg; intros; apply Rmult_le_pos; apply Rabs_pos).
  assert (WS : forall i k, WF i k = WF k i) by (intros; apply sumr_ext; intros; ring).
  assert (FE : forall k, (0 <= k < n)%Z -> Rabs (BF r k + (if (k =? r)%Z then EF r else 0) - sumr (fun j => LF r j * DF j * LF k j) (zr 0 n)) <=
    (hp (Datatypes.S N) - 1) * WF r k + hp (Datatypes.S (N + N)) * eta * (INR N + 1) * (1 + RF r + RF k)).
  { intros k Hk. set (z := hp (Datatypes.S (N + N)) * eta * (INR N + 1) * (1 + RF r + RF k)).
    assert (Q : forall i, 0 <= RF i <= RF r + RF k -> hp (Datatypes.S N) * eta * (INR N + RF i) <= z).
    { intros i Hi. unfold z. replace (hp (Datatypes.S (N + N)) * eta * (INR N + 1) * (1 + RF r + RF k)) with (hp (Datatypes.S (N + N)) * eta * ((INR N + 1) * (1 + RF r + RF k))) by ring.
      pose proof (RP r). pose proof (RP k). apply Rmult_le_compat; [apply Rmult_le_pos; lra|lra|apply Rmult_le_compat_r; lra|]. nra. }
    destruct (Z_le_gt_dec r k) as [Hrk|Hrk].
    - pose proof (fact_err k r ltac:(lia) ltac:(lia)) as Fe. rewrite Z.eqb_sym. assert (EE : (if (r =? k)%Z then EF r else 0) = (if (r =? k)%Z then EF k else 0)) by (destruct (Z.eqb_spec r k) as [->|]; reflexivity). rewrite EE.
      eapply Rle_trans; [exact Fe|]. apply Rplus_le_compat_l, Q. pose proof (RP r). pose proof (RP k). lra.
    - pose proof (fact_err r k ltac:(lia) ltac:(lia)) as Fe. rewrite (Hsym r k) by lia. rewrite (WS r k).
      rewrite (sumr_ext _ (fun j => LF k j * DF j * LF r j) (zr 0 n)) by (intros; ring).
      eapply Rle_trans; [exact Fe|]. apply Rplus_le_compat_l, Q. pose proof (RP r). pose proof (RP k). lra. }
  set (A := fun k => sumr (fun j => LF r j * DF j * LF k j) (zr 0 n)) in *.
  assert (E1 : sumr (fun k => BF r k * B2R (ws k)) (zr 0 n) + EF r * B2R (ws r) = sumr (fun k => (BF r k + (if (k =? r)%Z then EF r else 0)) * B2R (ws k)) (zr 0 n)).
  { rewrite <- (sumr_delta r (fun k => EF r * B2R (ws k)) (zr 0 n)); [|apply NoDup_zr|apply in_zr; auto]. rewrite <- sumr_plus.
    apply sumr_ext. intros k _. destruct (k =? r)%Z; ring. }
  rewrite E1.
  assert (D1 : Rabs (sumr (fun k => A k * B2R (ws k)) (zr 0 n) - sumr (fun k => (BF r k + (if (k =? r)%Z then EF r else 0)) * B2R (ws k)) (zr 0 n)) <=
    (hp (Datatypes.S N) - 1) * sumr (fun k => WF r k * Rabs (B2R (ws k))) (zr 0 n) + hp (Datatypes.S (N + N)) * eta * (INR N + 1) * sumr (fun k => (1 + RF r + RF k) * Rabs (B2R (ws k))) (zr 0 n)).
  { rewrite <- sumr_minus. eapply Rle_trans; [apply sumr_abs|].
    eapply Rle_trans; [apply sumr_le with (g := fun k => (hp (Datatypes.S N) - 1) * (WF r k * Rabs (B2R (ws k))) + hp (Datatypes.S (N + N)) * eta * (INR N + 1) * ((1 + RF r + RF k) * Rabs (B2R (ws k))))|].
    2:{ rewrite sumr_plus, !sumr_scal. apply Rle_refl. }
    intros k Hk. apply in_zr in Hk. rewrite <- Rmult_minus_distr_r, Rabs_mult, Rabs_minus_sym. specialize (FE k Hk). fold (A k) in FE.
    apply (Rmult_le_compat_r (Rabs (B2R (ws k)))) in FE; [|apply Rabs_pos]. lra. }
  replace (B2R (b r) - sumr (fun k => (BF r k + (if (k =? r)%Z then EF r else 0)) * B2R (ws k)) (zr 0 n)) with
    ((B2R (b r) - sumr (fun k => A k * B2R (ws k)) (zr 0 n)) + (sumr (fun k => A k * B2R (ws k)) (zr 0 n) - sumr (fun k => (BF r k + (if (k =? r)%Z then EF r else 0)) * B2R (ws k)) (zr 0 n))) by ring.
  eapply Rle_trans; [apply Rabs_triang|]. eapply Rle_trans; [apply Rplus_le_compat; [exact S|exact D1]|]. right. ring.
Qed.
End Solve.
End FactF.
