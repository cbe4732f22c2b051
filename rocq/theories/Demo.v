(** Concrete problems used to show that the hypotheses of the theorems can be met. *)
From Coq Require Import ZArith Reals List Lia Lra Bool.
From Verif Require Import Res Arith Lists MSparse MLdl MSolver Spec QpSpec Api.
Import ListNotations.
Open Scope Z_scope.

Definition zs (l : list Z) : arr Z := map Some l.
Definition fs (A : Arith) (l : list Z) : arr (car A) := map (fun v => Some (fofZ A v)) l.

(** The library's own example, /repo/demo/Matrices.h: 3 variables, 2 inequalities, 1 equality. *)
Definition demo (A : Arith) : user (car A) :=
  mkUser 3 2 1
    (zs [0; 2; 5; 7]) (zs [0; 1; 0; 1; 2; 1; 2]) (fs A [5; 1; 1; 2; 1; 1; 4])
    (Some (zs [0; 1; 2; 3])) (Some (zs [0; 0; 0])) (Some (fs A [1; -2; 1]))
    (zs [0; 1; 2; 3]) (zs [0; 0; 1]) (fs A [-4; -4; -1])
    (fs A [1; 2; 1]) (fs A [-1; -1]) (Some (fs A [3])) (f0 A)
    (Some (zs [5; 2; 3; 1; 4; 0])).

(** One variable, two inequalities x >= 1 and 0 <= 1; the second has no stored coefficient. *)
Definition gappy (A : Arith) : user (car A) :=
  mkUser 1 2 0
    (zs [0; 1]) (zs [0]) (fs A [1])
    None None None
    (zs [0; 1]) (zs [0]) (fs A [-1])
    (fs A [0]) (fs A [-1; 1]) None (f0 A)
    (Some (zs [0; 1; 2])).

(** Minimise x^2/2 subject to x >= 1: no equality constraints. *)
Definition small (A : Arith) : user (car A) :=
  mkUser 1 1 0
    (zs [0; 1]) (zs [0]) (fs A [1])
    None None None
    (zs [0; 1]) (zs [0]) (fs A [-1])
    (fs A [0]) (fs A [-1]) None (f0 A)
    (Some (zs [1; 0])).

(** Case split on an integer variable with concrete bounds. *)
Ltac enum j :=
  match goal with
  | H : 0 <= j < 1 |- _ => assert (j = 0) by lia
  | H : 0 <= j < 2 |- _ => assert (j = 0 \/ j = 1) by lia
  | H : 0 <= j < 3 |- _ => assert (j = 0 \/ j = 1 \/ j = 2) by lia
  | H : 0 <= j < 4 |- _ => assert (j = 0 \/ j = 1 \/ j = 2 \/ j = 3) by lia
  | H : 0 <= j < 6 |- _ => assert (j = 0 \/ j = 1 \/ j = 2 \/ j = 3 \/ j = 4 \/ j = 5) by lia
  | H : 0 <= j < 7 |- _ => assert (j = 0 \/ j = 1 \/ j = 2 \/ j = 3 \/ j = 4 \/ j = 5 \/ j = 6) by lia
  end;
  repeat match goal with H : j = _ \/ _ |- _ => destruct H end; subst j.

Ltac csc_concrete :=
  eexists; constructor; [constructor; [reflexivity| |reflexivity|]|];
  [intros j Hj; enum j; do 2 eexists; (split; [reflexivity|split; [reflexivity|lia]])
  |intros k Hk; enum k; eexists; (split; [reflexivity|lia])
  |intros k Hk; enum k; eexists; reflexivity].

Ltac perm_concrete :=
  constructor;
  [intros i Hi; enum i; eexists; (split; [reflexivity|lia])
  |let E1 := fresh in let E2 := fresh in
   intros i j a Hi Hj E1 E2; enum i; enum j; try reflexivity;
   exfalso; vm_compute in E1; vm_compute in E2; rewrite <- E1 in E2; discriminate E2].

Lemma demo_valid A amd : valid_user amd (demo A).
Proof.
  constructor; cbn [demo u_n u_m u_p u_Pjc u_Pir u_Ppr u_Gjc u_Gir u_Gpr u_c u_h u_perm].
  - lia.
  - lia.
  - csc_concrete.
  - csc_concrete.
  - intros ajc air apr bb E. cbn in E. injection E as <- <- <- <-. split; [lia|]. split; [csc_concrete|].
    intros i Hi. enum i. eexists. reflexivity.
  - intros i Hi. enum i; eexists; reflexivity.
  - intros i Hi. enum i; eexists; reflexivity.
  - exists 0, 0, (fofZ A 5). split; [lia|]. left. exists 0, 2, 0. cbn. repeat split; auto; lia.
  - change (u_N (demo A)) with 6. perm_concrete.
Qed.

Lemma demo_covered A : covered (demo A).
Proof.
  intros i Hi. change (u_m (demo A)) with 2 in Hi. enum i.
  - exists 0, (fofZ A (-4)). split; [cbn; lia|]. exists 0, 1, 0. cbn. repeat split; auto; lia.
  - exists 2, (fofZ A (-1)). split; [cbn; lia|]. exists 2, 3, 2. cbn. repeat split; auto; lia.
Qed.

Lemma small_valid A amd : valid_user amd (small A).
Proof.
  constructor; cbn [small u_n u_m u_p u_Pjc u_Pir u_Ppr u_Gjc u_Gir u_Gpr u_c u_h u_perm].
  - lia.
  - lia.
  - csc_concrete.
  - csc_concrete.
  - intros ajc air apr bb E. discriminate E.
  - intros i Hi. enum i; eexists; reflexivity.
  - intros i Hi. enum i; eexists; reflexivity.
  - exists 0, 0, (fofZ A 1). split; [lia|]. left. exists 0, 1, 0. cbn. repeat split; auto; lia.
  - change (u_N (small A)) with 2. perm_concrete.
Qed.

Lemma small_covered A : covered (small A).
Proof.
  intros i Hi. change (u_m (small A)) with 1 in Hi. enum i.
  exists 0, (fofZ A (-1)). split; [cbn; lia|]. exists 0, 1, 0. cbn. repeat split; auto; lia.
Qed.

Lemma gappy_valid A amd : valid_user amd (gappy A).
Proof.
  constructor; cbn [gappy u_n u_m u_p u_Pjc u_Pir u_Ppr u_Gjc u_Gir u_Gpr u_c u_h u_perm].
  - lia.
  - lia.
  - csc_concrete.
  - csc_concrete.
  - intros ajc air apr bb E. discriminate E.
  - intros i Hi. enum i; eexists; reflexivity.
  - intros i Hi. enum i; eexists; reflexivity.
  - exists 0, 0, (fofZ A 1). split; [lia|]. left. exists 0, 1, 0. cbn. repeat split; auto; lia.
  - change (u_N (gappy A)) with 3. perm_concrete.
Qed.
