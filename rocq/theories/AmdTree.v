(** The assembly tree at the end of the main loop of AMD_2, and the compression of its paths
    (src/amd_2.c:1634-1760). *)
From Coq Require Import ZArith List Lia Bool.
From Verif Require Import Res Lists MAmd AmdBase AmdView AmdLists AmdGc AmdInv AmdRestore AmdPivot.
Import ListNotations.
Open Scope Z_scope.
Open Scope res_scope.

(** ** What the main loop leaves behind *)

(** [par i] is the parent of i, -1 for none; [nv i] is positive for elements; [rep i] is the element that the merged
    variable i belongs to.  Variables without parent that are no elements are the dense ones. *)
Record FOREST (n : Z) (par nv rep dep : Z -> Z) : Prop := mkFOREST {
  f_par : forall i, 0 <= i < n -> -1 <= par i < n;
  f_nv : forall i, 0 <= i < n -> 0 <= nv i;
  f_dep : forall i, 0 <= i < n -> 0 <= dep i < n;
  f_up : forall i, 0 <= i < n -> par i <> -1 -> dep (par i) < dep i;
  f_elt : forall i, 0 <= i < n -> 0 < nv i -> par i <> -1 -> 0 < nv (par i);
  f_rng : forall i, 0 <= i < n -> 0 <= rep i < n;
  f_self : forall i, 0 <= i < n -> 0 < nv i \/ par i = -1 -> rep i = i;
  f_rep : forall i, 0 <= i < n -> nv i = 0 -> par i <> -1 -> rep i = rep (par i);
  f_sz : forall r, 0 <= r < n -> 0 < nv r -> size n rep r = nv r;
  f_nz : forall i, 0 <= i < n -> nv i = 0 -> par i <> -1 -> 0 < nv (rep i)
}.

Section Depth.
Variables (n : Z) (par : Z -> Z).

Inductive Dep : Z -> Z -> Prop :=
| D_root i : 0 <= i < n -> par i = -1 -> Dep i 0
| D_step i d : 0 <= i < n -> par i <> -1 -> Dep (par i) d -> Dep i (d + 1).

Lemma Dep_fun i d : Dep i d -> forall d', Dep i d' -> d' = d.
Proof.
  induction 1 as [i Hi P|i d Hi P R IH]; intros d' H'; inversion H'; subst; auto; try tauto. f_equal. auto.
Qed.

Lemma Dep_rng i d : Dep i d -> 0 <= i < n /\ 0 <= d.
Proof. induction 1; split; auto; lia. Qed.

Lemma Dep_path i d : Dep i d -> exists l, zlen l = d + 1 /\ NoDup l /\ forall x, In x l -> 0 <= x < n /\ exists c, Dep x c /\ c <= d.
Proof.
  induction 1 as [i Hi P|i d Hi P R [l [L [ND H]]]].
  - exists [i]. split; [reflexivity|]. split; [constructor; [simpl; tauto|constructor]|]. intros x [<-|[]]. split; auto.
    exists 0. split; [constructor; auto|lia].
  - exists (i :: l). rewrite zlen_cons. split; [lia|]. assert (D : Dep i (d + 1)) by (constructor; auto). split.
    + constructor; auto. intros X. destruct (H i X) as [_ [c [Hc Lc]]]. pose proof (Dep_fun _ _ D _ Hc). lia.
    + intros x [<-|Hx]; [split; auto; exists (d + 1); split; auto; lia|]. destruct (H x Hx) as [A [c [Hc Lc]]]. split; auto.
      exists c. split; auto. lia.
Qed.

Lemma Dep_lt i d : Dep i d -> 0 <= d < n.
Proof.
  intros D. destruct (Dep_path i d D) as [l [L [ND H]]]. destruct (Dep_rng i d D) as [A B]. split; auto.
  assert (zlen l <= Z.max 0 (n - 0)) by (apply NoDup_bounded_length; auto; intros; apply H; auto). lia.
Qed.

Fixpoint depf (f : nat) (i : Z) : Z :=
  match f with O => 0 | S f => if par i =? -1 then 0 else depf f (par i) + 1 end.

Lemma depf_eq i d : Dep i d -> forall f, d < Z.of_nat f -> depf f i = d.
Proof.
  induction 1 as [i Hi P|i d Hi P R IH]; intros f Hf; (destruct f as [|f]; [try (pose proof (Dep_rng _ _ R)); lia|]); simpl.
  - rewrite P. reflexivity.
  - destruct (Z.eqb_spec (par i) (-1)); [tauto|]. rewrite IH; lia.
Qed.

Lemma depth : (forall i, 0 <= i < n -> exists d, Dep i d) ->
  exists dep, (forall i, 0 <= i < n -> 0 <= dep i < n) /\ (forall i, 0 <= i < n -> par i <> -1 -> 0 <= par i < n /\ dep (par i) < dep i).
Proof.
  intros H. exists (depf (Z.to_nat n)).
  assert (E : forall i d, Dep i d -> depf (Z.to_nat n) i = d) by (intros i d D; pose proof (Dep_lt i d D); apply depf_eq; [auto|lia]).
  split.
  - intros i Hi. destruct (H i Hi) as [d D]. rewrite (E i d D). apply (Dep_lt i d D).
  - intros i Hi P. destruct (H i Hi) as [d D]. inversion D as [|? d' _ _ D']; subst; [tauto|]. split; [apply (Dep_rng _ _ D')|].
    rewrite (E _ _ D), (E _ _ D'). lia.
Qed.
End Depth.

Lemma Rooted_Dep n pe : (forall i, 0 <= i < n -> pe i < 0) -> forall i, Rooted n pe i -> exists d, Dep n (fun i => FLIP (pe i)) i d.
Proof.
  intros Neg. induction 1 as [i Hi L|i Hi L R [d IH]].
  - exists 0. constructor; auto. specialize (Neg i Hi). replace (pe i) with (-1) by lia. reflexivity.
  - exists (d + 1). constructor; auto. rewrite FLIP_val. lia.
Qed.

(** The exit of the main loop. *)
Lemma LOOP_exit n iwlen pf0 v : LOOP n iwlen pf0 v -> n <= vnel v ->
  exists rep dep, FOREST n (fun i => FLIP (vPe v i)) (vNv v) rep dep /\ forall i, 0 <= i < n -> 0 < vNv v i -> 0 <= FLIP (vElen v i).
Proof.
  intros [C [E [V [rep [dl [[G T D M U W To Dm Hi] Wf]]]]]] Hn.
  assert (NV : forall i, ~ var n v i).
  { intros i Vi. pose proof (wsum_pos n v (fun _ => true) i Vi eq_refl). destruct Vi as [_ [X _]]. lia. }
  assert (NE : forall i, ~ elt n v i).
  { intros i Ei. assert (i <> -1) by (destruct Ei; lia). destruct (g_deg _ _ _ _ _ _ _ _ G i Ei) as [A B]; auto.
    rewrite wsum_none in A; [lia|]. intros j Vj. exfalso. apply (NV j Vj). }
  assert (Neg : forall i, 0 <= i < n -> vPe v i < 0).
  { intros i R. destruct (Z_lt_dec (vPe v i) 0); auto. exfalso. pose proof (g_kind _ _ _ _ _ _ _ _ G i R) as K.
    destruct (kind_live n v i K R) as [X|X]; [lia| |]; [apply (NV i X)|apply (NE i X)]. }
  assert (Pos : forall i, 0 <= i < n -> 0 <= vNv v i).
  { intros i R. destruct (Z_lt_dec (vNv v i) 0) as [L|L]; [|lia]. destruct (g_neg _ _ _ _ _ _ _ _ G i R L) as [->|[]]. lia. }
  destruct (depth n (fun i => FLIP (vPe v i))) as [dep [D1 D2]].
  { intros i R. apply (Rooted_Dep n (vPe v) Neg). apply T; auto. }
  assert (PM : forall i, 0 <= i < n -> FLIP (vPe v i) <> -1 <-> vPe v i < -1).
  { intros i R. pose proof (Neg i R). rewrite FLIP_val. lia. }
  exists rep, dep. split; [constructor|].
  - intros i R. pose proof (Neg i R). destruct (Z.eq_dec (FLIP (vPe v i)) (-1)) as [X|X]; [lia|]. apply D2 in X; auto. lia.
  - exact Pos.
  - exact D1.
  - intros i R X. apply D2; auto.
  - intros i R Z0 X. rewrite PM in X by auto. destruct (t_par _ _ _ _ _ T i R ltac:(lia) X) as [A [B _]]. specialize (Pos _ A). lia.
  - apply T.
  - intros i R X. apply T; auto. rewrite FLIP_val in X. lia.
  - intros i R Z0 X. rewrite PM in X by auto. apply T; auto.
  - intros r R Nr. rewrite (t_sz _ _ _ _ _ T r R) by lia. destruct (Z.eqb_spec r (-1)); lia.
  - intros i R Z0 X. rewrite PM in X by auto. pose proof (t_nz _ _ _ _ _ T i R Z0 X). pose proof (Pos (rep i) ltac:(apply T; auto)). lia.
  - intros i R Ni. rewrite FLIP_val. destruct (g_kind _ _ _ _ _ _ _ _ G i R) as [K|K]; [|lia]. exfalso. apply (NV i). split; auto. lia.
Qed.

(** ** Path compression *)
Section Compress.
Variables (n : Z) (par nv rep dep : Z -> Z).
Hypothesis F : FOREST n par nv rep dep.

Lemma fo_par i : 0 <= i < n -> par i <> -1 -> 0 <= par i < n.
Proof. intros Hi P. pose proof (f_par _ _ _ _ _ F i Hi). lia. Qed.

Lemma fo_rep_rep i : 0 <= i < n -> rep (rep i) = rep i.
Proof.
  intros Hi. pose proof (f_nv _ _ _ _ _ F i Hi).
  destruct (Z.eq_dec (par i) (-1)) as [P|P]; [assert (E : rep i = i) by (apply F; auto); congruence|].
  destruct (Z.eq_dec (nv i) 0) as [Z0|Z0]; [|assert (E : rep i = i) by (apply F; auto; lia); congruence].
  apply F; [apply F; auto|]. left. apply F; auto.
Qed.

Lemma fo_rep_dep i : 0 <= i < n -> nv i = 0 -> par i <> -1 -> dep (rep i) < dep i.
Proof.
  remember (Z.to_nat (dep i)) as k eqn:Ek. revert i Ek. induction k as [k IH] using lt_wf_ind. intros i -> Hi Z0 P.
  pose proof (f_up _ _ _ _ _ F i Hi P). pose proof (f_dep _ _ _ _ _ F i Hi). pose proof (fo_par i Hi P) as Rp. pose proof (f_dep _ _ _ _ _ F _ Rp).
  rewrite (f_rep _ _ _ _ _ F i Hi Z0 P). pose proof (f_nv _ _ _ _ _ F _ Rp).
  destruct (Z.eq_dec (nv (par i)) 0) as [Y|Y]; [|rewrite (f_self _ _ _ _ _ F (par i)) by (auto; lia); lia].
  destruct (Z.eq_dec (par (par i)) (-1)) as [Q|Q]; [rewrite (f_self _ _ _ _ _ F (par i)) by auto; lia|].
  assert (dep (rep (par i)) < dep (par i)) by (apply (IH (Z.to_nat (dep (par i)))); auto; lia). lia.
Qed.

(** A merged variable. *)
Definition mrg (i : Z) : bool := (nv i =? 0) && negb (par i =? -1).
Lemma mrg_true i : mrg i = true <-> nv i = 0 /\ par i <> -1.
Proof. unfold mrg. rewrite andb_true_iff, negb_true_iff, Z.eqb_eq, Z.eqb_neq. tauto. Qed.

Definition fpar (i : Z) : Z := if mrg i then rep i else par i.

Definition CI (i : Z) (q : Z -> Z) : Prop := forall j, 0 <= j < n -> q j = par j \/ (mrg j = true /\ q j = rep j).

Lemma to_elt j i : 0 <= i < n -> 0 <= j < n -> mrg i = true -> rep j = rep i -> nv j = 0 -> mrg j = true.
Proof.
  intros Hi Hj Mi E Z0. apply mrg_true in Mi. destruct Mi as [Z1 P1]. apply mrg_true. split; auto. intros P.
  rewrite (f_self _ _ _ _ _ F j Hj) in E by auto. pose proof (f_nz _ _ _ _ _ F i Hi Z1 P1). rewrite <- E in H. lia.
Qed.

Lemma CI_next i q j : CI i q -> 0 <= j < n -> mrg j = true -> 0 <= q j < n /\ rep (q j) = rep j /\ dep (q j) < dep j.
Proof.
  intros H Hj M. pose proof M as M'. apply mrg_true in M'. destruct M' as [Z0 P].
  destruct (H j Hj) as [E|[_ E]]; rewrite E.
  - split; [apply fo_par; auto|]. split; [symmetry; apply F; auto|apply F; auto].
  - split; [apply F; auto|]. split; [apply fo_rep_rep; auto|apply fo_rep_dep; auto].
Qed.

Lemma compress_one_ok Nv Pe q i (Q : arr Z -> Prop) : is_vec Nv n nv -> is_vec Pe n q -> CI i q -> 0 <= i < n ->
  (forall Pe' q', is_vec Pe' n q' -> CI i q' -> (forall j, 0 <= j < n -> q j = rep j -> mrg j = true -> q' j = rep j) -> (mrg i = true -> q' i = rep i) -> Q Pe') ->
  wp (compress_one n Nv i Pe) Q.
Proof.
  intros VN VP HC Hi HQ. unfold compress_one. wb. apply (is_vec_rd _ _ _ _ _ VN Hi).
  destruct (Z.eqb_spec (nv i) 0) as [Z0|Z0]; [|wok; apply (HQ Pe q); auto; rewrite mrg_true; tauto].
  wb. apply (is_vec_rd _ _ _ _ _ VP Hi). rewrite EMPTY_val. destruct (Z.eqb_spec (q i) (-1)) as [E1|E1].
  { wok. apply (HQ Pe q); auto. rewrite mrg_true. intros [_ P]. pose proof (fo_par i Hi P). pose proof (f_rng _ _ _ _ _ F i Hi). destruct (HC i Hi) as [?|[_ ?]]; lia. }
  assert (Mi : mrg i = true). { apply mrg_true. split; auto. intros P. destruct (HC i Hi) as [?|[M _]]; [lia|]. apply mrg_true in M. tauto. }
  destruct (CI_next i q i HC Hi Mi) as [A [B D]].
  wb. apply (wp_while (fun j => 0 <= j < n /\ rep j = rep i) (fun j => dep j)); auto.
  { pose proof (f_dep _ _ _ _ _ F _ A). unfold fuel. lia. }
  intros j [Hj Ej]. split; [apply F; auto|]. wb. apply (is_vec_rd _ _ _ _ _ VN Hj). wok. destruct (Z.eqb_spec (nv j) 0) as [Zj|Zj].
  { apply (is_vec_rd _ _ _ _ _ VP Hj). destruct (CI_next i q j HC Hj) as [A1 [B1 D1]]; [apply (to_elt j i); auto|]. split; [split; auto; congruence|auto]. }
  assert (Ee : j = rep i). { rewrite <- Ej. symmetry. apply F; auto. left. pose proof (f_nv _ _ _ _ _ F j Hj). lia. }
  wb. apply (wp_while (fun '(j, Pe) => exists q', is_vec Pe n q' /\ CI i q' /\ (forall x, 0 <= x < n -> q x = rep x -> mrg x = true -> q' x = rep x) /\
       0 <= j < n /\ rep j = rep i /\ (j = i \/ q' i = rep i)) (fun '(j, _) => dep j)).
  - exists q. split; auto. split; auto. 
  - pose proof (f_dep _ _ _ _ _ F _ Hi). unfold fuel. lia.
  - intros [k Pe1] [q1 [V1 [C1 [K1 [Hk [Ek Dk]]]]]]. split; [apply F; auto|]. wb. apply (is_vec_rd _ _ _ _ _ VN Hk). wok. destruct (Z.eqb_spec (nv k) 0) as [Zk|Zk].
    + assert (Mk : mrg k = true) by (apply (to_elt k i); auto). destruct (CI_next i q1 k C1 Hk Mk) as [A1 [B1 D1]].
      wb. apply (is_vec_rd _ _ _ _ _ V1 Hk). wb. apply (is_vec_wr _ _ _ _ _ _ V1 Hk). intros Pe2 V2. wok. split; auto.
      exists (fup q1 k j). split; auto. assert (Ejk : j = rep k) by congruence. split; [|split; [|split; [|split]]]; auto.
      * intros x Hx. unfold fup. destruct (Z.eqb_spec x k) as [->|]; [right; auto|apply C1; auto].
      * intros x Hx E Mx. unfold fup. destruct (Z.eqb_spec x k) as [->|]; [auto|apply K1; auto].
      * congruence.
      * right. unfold fup. destruct (Z.eqb_spec i k) as [->|]; [auto|]. destruct Dk; congruence.
    + wok. apply (HQ Pe1 q1); auto. intros _. destruct Dk as [->|]; [tauto|auto].
Qed.

Lemma compress_ok Nv Pe (Q : arr Z -> Prop) : 0 <= n -> is_vec Nv n nv -> is_vec Pe n par ->
  (forall Pe', is_vec Pe' n fpar -> Q Pe') -> wp (for_ 0 n (fun i Pe => compress_one n Nv i Pe) Pe) Q.
Proof.
  intros Hn VN VP HQ.
  apply (wp_for_le (fun i Pe => exists q, is_vec Pe n q /\ CI i q /\ forall j, 0 <= j < i -> mrg j = true -> q j = rep j)); auto.
  - exists par. split; auto. split; [left; auto|]. intros; lia.
  - intros i Pe1 Hi [q [V1 [C1 D1]]]. apply (compress_one_ok Nv Pe1 q i); auto. intros Pe2 q2 V2 C2 K2 E2. exists q2. split; auto. split; auto.
    intros j Hj Mj. destruct (Z.eq_dec j i) as [->|]; [auto|]. apply K2; auto; [lia|]. apply D1; auto. lia.
  - intros Pe1 [q [V1 [C1 D1]]]. apply HQ. destruct V1 as [L R]. split; auto. intros j Hj. rewrite R by auto. f_equal. unfold fpar.
    destruct (mrg j) eqn:M; [apply D1; auto|]. destruct (C1 j Hj) as [E|[M' _]]; [auto|congruence].
Qed.
End Compress.
