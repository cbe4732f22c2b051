(** The arithmetic the solver runs on, as a parameter.

    [qp_real] is [double] (include/GlobalOptions.h:36).  The model is written over [Arith]; it is
    instantiated with the real numbers ([RA]) and with IEEE-754 binary64, round to nearest even
    ([FA], Flocq).  In [RA] an undefined real operation is an [Ub] outcome, so an exact-arithmetic
    theorem "the result is [Ok]" includes "no division by zero, no square root of a negative". *)
From Coq Require Import ZArith Reals Lia Bool.
From Flocq Require Import IEEE754.BinarySingleNaN.
From Verif Require Import Res.
Open Scope Z_scope.

Record Arith : Type := mkArith {
  car : Type;
  fadd : car -> car -> car;
  fsub : car -> car -> car;
  fmul : car -> car -> car;
  fopp : car -> car;
  fdiv : car -> car -> res car;
  fsqrt : car -> res car;
  flt : car -> car -> bool;      (* C  x < y   *)
  fle : car -> car -> bool;      (* C  x <= y  *)
  feqb : car -> car -> bool;     (* C  x == y  *)
  fofZ : Z -> car;               (* integer literal or conversion from long *)
  fdec : Z -> Z -> car           (* decimal literal num/den *)
}.

Definition f0 (A : Arith) : car A := fofZ A 0.
Definition f1 (A : Arith) : car A := fofZ A 1.

(** Every operation defined: what IEEE arithmetic provides. *)
Definition total_arith (A : Arith) : Prop :=
  (forall x y, exists r, fdiv A x y = Ok r) /\ (forall x, exists r, fsqrt A x = Ok r).

(** ** Exact arithmetic *)

Definition Rltb (x y : R) : bool := if Rlt_dec x y then true else false.
Definition Rleb (x y : R) : bool := if Rle_dec x y then true else false.
Definition Reqb (x y : R) : bool := if Req_EM_T x y then true else false.

Definition RA : Arith := {|
  car := R;
  fadd := Rplus; fsub := Rminus; fmul := Rmult; fopp := Ropp;
  fdiv := fun x y => if Req_EM_T y 0 then Ub Undef else Ok (x / y)%R;
  fsqrt := fun x => if Rlt_dec x 0 then Ub Undef else Ok (sqrt x);
  flt := Rltb; fle := Rleb; feqb := Reqb;
  fofZ := IZR;
  fdec := fun num den => (IZR num / IZR den)%R
|}.

(** ** IEEE binary64 *)

Definition b64 : Type := binary_float 53 1024.

Lemma prec64 : FLX.Prec_gt_0 53. Proof. reflexivity. Qed.
Lemma emax64 : Prec_lt_emax 53 1024. Proof. reflexivity. Qed.

Definition b64_ofZ (z : Z) : b64 := binary_normalize 53 1024 prec64 emax64 mode_NE z 0 false.
Definition b64_div : b64 -> b64 -> b64 := @Bdiv 53 1024 prec64 emax64 mode_NE.

Definition FA : Arith := {|
  car := b64;
  fadd := @Bplus 53 1024 prec64 emax64 mode_NE;
  fsub := @Bminus 53 1024 prec64 emax64 mode_NE;
  fmul := @Bmult 53 1024 prec64 emax64 mode_NE;
  fopp := @Bopp 53 1024;
  fdiv := fun x y => Ok (b64_div x y);
  fsqrt := fun x => Ok (@Bsqrt 53 1024 prec64 emax64 mode_NE x);
  flt := @Bltb 53 1024; fle := @Bleb 53 1024; feqb := @Beqb 53 1024;
  fofZ := b64_ofZ;
  (* correctly rounded whenever num and den are below 2^53, as all literals used here are *)
  fdec := fun num den => b64_div (b64_ofZ num) (b64_ofZ den)
|}.

Lemma FA_total : total_arith FA.
Proof. split; intros; eexists; reflexivity. Qed.

(** ** Comparisons of the exact instance *)

Lemma Rltb_true x y : Rltb x y = true <-> (x < y)%R.
Proof. unfold Rltb; destruct (Rlt_dec x y); split; intros; auto; discriminate. Qed.
Lemma Rltb_false x y : Rltb x y = false <-> (y <= x)%R.
Proof.
  unfold Rltb; destruct (Rlt_dec x y); split; intros; auto; try discriminate.
  - exfalso; apply (Rlt_not_le _ _ r); auto.
  - apply Rnot_lt_le; auto.
Qed.
Lemma Rleb_true x y : Rleb x y = true <-> (x <= y)%R.
Proof. unfold Rleb; destruct (Rle_dec x y); split; intros; auto; discriminate. Qed.
Lemma Rleb_false x y : Rleb x y = false <-> (y < x)%R.
Proof.
  unfold Rleb; destruct (Rle_dec x y); split; intros; auto; try discriminate.
  - exfalso; apply (Rlt_not_le _ _ H); auto.
  - apply Rnot_le_lt; auto.
Qed.
Lemma Reqb_true x y : Reqb x y = true <-> x = y.
Proof. unfold Reqb; destruct (Req_EM_T x y); split; intros; auto; discriminate. Qed.
Lemma Reqb_false x y : Reqb x y = false <-> x <> y.
Proof. unfold Reqb; destruct (Req_EM_T x y); split; intros; auto; try discriminate; contradiction. Qed.

Lemma RA_div x y : y <> 0%R -> fdiv RA x y = Ok (x / y)%R.
Proof. intros H. simpl. destruct (Req_EM_T y 0); auto; contradiction. Qed.

Lemma RA_sqrt x : (0 <= x)%R -> fsqrt RA x = Ok (sqrt x).
Proof. intros H. simpl. destruct (Rlt_dec x 0) as [L|]; auto. exfalso; apply (Rlt_not_le _ _ L); auto. Qed.
