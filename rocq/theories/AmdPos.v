(** The numbers that the end of AMD_2 gives to elements, merged variables and dense variables (src/amd_2.c:1796-1831)
    are a bijection onto [0, n). *)
From Coq Require Import ZArith List Lia Bool.
From Verif Require Import Res Lists MAmd AmdBase AmdInv AmdRestore AmdTree AmdPostTree.
Import ListNotations.
Open Scope Z_scope.

Lemma inj_sur n (f : Z -> Z) : (forall i, 0 <= i < n -> 0 <= f i < n) -> (forall i j, 0 <= i < n -> 0 <= j < n -> f i = f j -> i = j) ->
  forall k, 0 <= k < n -> exists i, 0 <= i < n /\ f i = k.
Proof.
  intros R I k Hk.
  assert (ND : NoDup (map f (zr 0 n))).
  { assert (H : forall l, NoDup l -> (forall x, In x l -> 0 <= x < n) -> NoDup (map f l)).
    { induction l as [|x l IH]; intros ND H; simpl; constructor.
      - inversion ND; subst. intros X. apply in_map_iff in X. destruct X as [y [E Hy]]. apply I in E; [congruence|apply H; right; auto|apply H; left; auto].
      - inversion ND; subst. apply IH; auto. intros; apply H; right; auto. }
    apply H; [apply NoDup_zr|]. intros x Hx. apply in_zr in Hx. auto. }
  assert (X : incl (zr 0 n) (map f (zr 0 n))).
  { apply NoDup_length_incl; auto; [rewrite map_length; auto|]. intros y Hy. apply in_map_iff in Hy. destruct Hy as [x [<- Hx]].
    apply in_zr in Hx. apply in_zr. auto. }
  assert (Y : In k (map f (zr 0 n))) by (apply X; apply in_zr; auto). apply in_map_iff in Y. destruct Y as [i [E Hi]]. apply in_zr in Hi. eauto.
Qed.

(** Counting a property over an initial range. *)
Definition cnt0 (p : Z -> bool) (i : Z) : Z := sumz (fun j => if p j then 1 else 0) (zr 0 i).
Lemma cnt0_step p i : 0 <= i -> cnt0 p (i + 1) = cnt0 p i + if p i then 1 else 0.
Proof. intros H. unfold cnt0. rewrite zr_snoc by lia. rewrite sumz_app. cbn [sumz]. lia. Qed.
Lemma cnt0_nonneg p i : 0 <= cnt0 p i.
Proof. apply sumz_nonneg. intros x _. destruct (p x); lia. Qed.
Lemma cnt0_mono p i j : 0 <= i <= j -> cnt0 p i <= cnt0 p j.
Proof.
  intros H. unfold cnt0. rewrite (zr_app 0 i j) by lia. rewrite sumz_app.
  assert (0 <= sumz (fun j => if p j then 1 else 0) (zr i j)) by (apply sumz_nonneg; intros x _; destruct (p x); lia). lia.
Qed.
Lemma cnt0_lt p i j : 0 <= i < j -> p i = true -> cnt0 p i < cnt0 p j.
Proof. intros H P. pose proof (cnt0_mono p (i + 1) j ltac:(lia)). rewrite cnt0_step, P in H0 by lia. lia. Qed.

Section Pos.
Variables (n : Z) (par nv rep dep order : Z -> Z) (m : Z).
Hypothesis Hn : 0 <= n.
Hypothesis F : FOREST n par nv rep dep.
Hypothesis N : NUM n nv order m.

Notation mrg := (mrg par nv).
Definition dn (j : Z) : bool := (nv j =? 0) && (par j =? -1).
Definition base (k : Z) : Z := sumz (fun x => if order x <? k then nv x else 0) (zr 0 n).
Definition bs (e : Z) : Z := base (order e).
Definition tot : Z := sumz nv (zr 0 n).
Definition mc (e i : Z) : Z := cnt0 (fun j => mrg j && (rep j =? e)) i.
Definition dc (i : Z) : Z := cnt0 dn i.

Definition pos (i : Z) : Z := if 0 <? nv i then bs i + nv i - 1 else if mrg i then bs (rep i) + mc (rep i) i else tot + dc i.

Lemma three i : 0 <= i < n -> (0 < nv i /\ mrg i = false /\ dn i = false /\ rep i = i) \/ (nv i = 0 /\ mrg i = true /\ dn i = false /\ 0 < nv (rep i)) \/
  (nv i = 0 /\ mrg i = false /\ dn i = true /\ rep i = i).
Proof.
  intros Hi. pose proof (f_nv _ _ _ _ _ F i Hi). unfold dn, AmdTree.mrg. destruct (Z.eqb_spec (nv i) 0) as [E|E].
  - destruct (Z.eqb_spec (par i) (-1)) as [P|P]; simpl.
    + right; right. split; auto. split; auto. split; auto. apply F; auto.
    + right; left. split; auto. split; auto. split; auto. apply F; auto.
  - left. split; [lia|]. split; auto. split; auto. apply F; auto. lia.
Qed.

Lemma base_step e : 0 <= e < n -> 0 < nv e -> base (order e + 1) = bs e + nv e.
Proof.
  intros He Ne. unfold bs, base.
  rewrite (sumz_ext (fun x => if order x <? order e + 1 then nv x else 0) (fup (fun x => if order x <? order e then nv x else 0) e (nv e))).
  - rewrite sumz_fup; [|apply NoDup_zr|apply in_zr; auto]. rewrite Z.ltb_irrefl. lia.
  - intros x Hx. apply in_zr in Hx. unfold fup. destruct (Z.eqb_spec x e) as [->|Nx]; [destruct (Z.ltb_spec (order e) (order e + 1)); [auto|lia]|].
    destruct (Z.ltb_spec (order x) (order e + 1)); destruct (Z.ltb_spec (order x) (order e)); auto; [|lia].
    assert (E : order x = order e) by lia. pose proof (n_in _ _ _ _ N e He Ne). destruct (Z_lt_dec 0 (nv x)) as [P|P].
    + exfalso. apply Nx. apply N; auto.
    + pose proof (f_nv _ _ _ _ _ F x Hx). lia.
Qed.

Lemma base_mono a b : a <= b -> base a <= base b.
Proof.
  intros H. apply sumz_le. intros x Hx. apply in_zr in Hx. pose proof (f_nv _ _ _ _ _ F x Hx).
  destruct (Z.ltb_spec (order x) a); destruct (Z.ltb_spec (order x) b); lia.
Qed.

Lemma base_0 : base 0 = 0.
Proof.
  apply sumz_zero. intros x Hx. apply in_zr in Hx. destruct (Z.ltb_spec (order x) 0); auto.
  destruct (Z_lt_dec 0 (nv x)) as [P|P]; [pose proof (n_in _ _ _ _ N x Hx P); lia|]. pose proof (f_nv _ _ _ _ _ F x Hx). lia.
Qed.

Lemma base_m : base m = tot.
Proof.
  apply sumz_ext. intros x Hx. apply in_zr in Hx. destruct (Z.ltb_spec (order x) m); auto.
  destruct (Z_lt_dec 0 (nv x)) as [P|P]; [pose proof (n_in _ _ _ _ N x Hx P); lia|]. pose proof (f_nv _ _ _ _ _ F x Hx). lia.
Qed.

Lemma bs_rng e : 0 <= e < n -> 0 < nv e -> 0 <= bs e /\ bs e + nv e <= tot.
Proof.
  intros He Ne. pose proof (n_in _ _ _ _ N e He Ne). rewrite <- base_step, <- base_m, <- base_0 by auto. unfold bs. split; apply base_mono; lia.
Qed.

Lemma bs_sep e e' : 0 <= e < n -> 0 < nv e -> order e < order e' -> bs e + nv e <= bs e'.
Proof. intros He Ne L. rewrite <- base_step by auto. apply base_mono. lia. Qed.

Lemma mc_full e : 0 <= e < n -> 0 < nv e -> mc e n = nv e - 1.
Proof.
  intros He Ne. rewrite <- (f_sz _ _ _ _ _ F e He Ne). unfold mc, cnt0, size.
  rewrite (sumz_ext (fun i => if rep i =? e then 1 else 0) (fup (fun j => if mrg j && (rep j =? e) then 1 else 0) e 1)).
  - rewrite sumz_fup; [|apply NoDup_zr|apply in_zr; auto]. destruct (three e He) as [[_ [-> _]]|[X|X]]; [simpl; lia|lia|lia].
  - intros x Hx. apply in_zr in Hx. unfold fup. destruct (Z.eqb_spec x e) as [->|Nx].
    + destruct (three e He) as [[_ [_ [_ ->]]]|[X|X]]; [rewrite Z.eqb_refl; auto|lia|lia].
    + destruct (three x Hx) as [[_ [-> [_ ->]]]|[[_ [-> _]]|[_ [-> [_ ->]]]]]; simpl; auto; destruct (Z.eqb_spec x e); congruence.
Qed.

Lemma dc_full : tot + dc n = n.
Proof.
  rewrite <- (sum_sizes n rep Hn) at 2 by apply F. unfold tot, dc, cnt0. rewrite <- sumz_plus. apply sumz_ext. intros r Hr. apply in_zr in Hr.
  destruct (three r Hr) as [[Nr [_ [-> _]]]|[[Z0 [M [-> Nr]]]|[Z0 [M [-> E]]]]].
  - rewrite (f_sz _ _ _ _ _ F r); auto. lia.
  - rewrite Z0. unfold size. rewrite sumz_zero; [lia|]. intros x Hx. apply in_zr in Hx. destruct (Z.eqb_spec (rep x) r) as [X|]; auto. exfalso.
    destruct (three x Hx) as [[Nx [_ [_ Ex]]]|[[_ [_ [_ Nx]]]|[_ [Mx [_ Ex]]]]]; [rewrite Ex in X; subst; lia|rewrite X in Nx; lia|rewrite Ex in X; subst; congruence].
  - rewrite Z0. unfold size. rewrite (sumz_ext (fun i => if rep i =? r then 1 else 0) (fun x => if x =? r then 1 else 0)).
    + rewrite sumz_delta; [lia|apply NoDup_zr|apply in_zr; auto].
    + intros x Hx. apply in_zr in Hx. destruct (Z.eqb_spec x r) as [->|Nx]; [rewrite E, Z.eqb_refl; auto|].
      destruct (Z.eqb_spec (rep x) r) as [X|]; auto. exfalso.
      destruct (three x Hx) as [[_ [_ [_ Ex]]]|[[_ [_ [_ Nr]]]|[_ [_ [_ Ex]]]]]; [congruence|rewrite X in Nr; lia|congruence].
Qed.

Lemma mc_le e i : 0 <= i <= n -> 0 <= e < n -> 0 < nv e -> 0 <= mc e i <= nv e - 1.
Proof. intros Hi He Ne. split; [apply cnt0_nonneg|]. rewrite <- mc_full by auto. apply cnt0_mono. lia. Qed.

Lemma mc_lt e i : 0 <= i < n -> 0 <= e < n -> 0 < nv e -> mrg i = true -> rep i = e -> mc e i < nv e - 1.
Proof. intros Hi He Ne M E. rewrite <- mc_full by auto. apply cnt0_lt; [lia|]. rewrite M, E, Z.eqb_refl. auto. Qed.

Lemma pos_block i : 0 <= i < n -> dn i = false -> 0 < nv (rep i) /\ bs (rep i) <= pos i < bs (rep i) + nv (rep i) /\ 0 <= pos i < tot.
Proof.
  intros Hi D. unfold pos. destruct (three i Hi) as [[Ni [_ [_ E]]]|[[Z0 [M [_ Ne]]]|[_ [_ [X _]]]]]; [| |congruence].
  - rewrite E. pose proof (bs_rng i Hi Ni). destruct (Z.ltb_spec 0 (nv i)); lia.
  - rewrite M, Z0. destruct (Z.ltb_spec 0 0); [lia|]. pose proof (f_rng _ _ _ _ _ F i Hi). pose proof (bs_rng (rep i) H0 Ne).
    pose proof (mc_lt (rep i) i Hi H0 Ne M eq_refl). pose proof (cnt0_nonneg (fun j => mrg j && (rep j =? rep i)) i). unfold mc in *. lia.
Qed.

Lemma pos_dense i : 0 <= i < n -> dn i = true -> tot <= pos i < n /\ pos i = tot + dc i.
Proof.
  intros Hi D. assert (E : pos i = tot + dc i).
  { unfold pos. destruct (three i Hi) as [X|[X|[-> [-> _]]]]; [destruct X as [_ [_ [X _]]]; congruence|destruct X as [_ [_ [X _]]]; congruence|reflexivity]. }
  rewrite E. pose proof dc_full. pose proof (cnt0_nonneg dn i). pose proof (cnt0_lt dn i n ltac:(lia) D). unfold dc in *. lia.
Qed.

Lemma pos_rng i : 0 <= i < n -> 0 <= pos i < n.
Proof.
  intros Hi. assert (0 <= tot) by (apply sumz_nonneg; intros x Hx; apply in_zr in Hx; apply F; auto).
  pose proof dc_full. pose proof (cnt0_nonneg dn n). unfold dc in *. destruct (dn i) eqn:D.
  - pose proof (pos_dense i Hi D). lia.
  - pose proof (pos_block i Hi D). lia.
Qed.

Lemma pos_ne i j : 0 <= i < j -> j < n -> pos i <> pos j.
Proof.
  intros Hi Hj. assert (Ri : 0 <= i < n) by lia. assert (Rj : 0 <= j < n) by lia.
  destruct (dn i) eqn:Di; destruct (dn j) eqn:Dj.
  - destruct (pos_dense i Ri Di) as [_ ->]. destruct (pos_dense j Rj Dj) as [_ ->]. pose proof (cnt0_lt dn i j Hi Di). unfold dc. lia.
  - pose proof (pos_dense i Ri Di). pose proof (pos_block j Rj Dj). lia.
  - pose proof (pos_dense j Rj Dj). pose proof (pos_block i Ri Di). lia.
  - destruct (pos_block i Ri Di) as [Ni [Bi _]]. destruct (pos_block j Rj Dj) as [Nj [Bj _]].
    pose proof (f_rng _ _ _ _ _ F i Ri) as Hei. pose proof (f_rng _ _ _ _ _ F j Rj) as Hej.
    destruct (Z.eq_dec (rep i) (rep j)) as [E|Ne].
    + unfold pos. destruct (three i Ri) as [[Xi [Mi [_ Ei]]]|[[Xi [Mi _]]|[_ [_ [X _]]]]]; [| |congruence];
      destruct (three j Rj) as [[Xj [Mj [_ Ej]]]|[[Xj [Mj _]]|[_ [_ [X _]]]]]; try congruence.
      * lia.
      * rewrite Mj. destruct (Z.ltb_spec 0 (nv i)); [|lia]. destruct (Z.ltb_spec 0 (nv j)); [lia|].
        pose proof (mc_lt (rep j) j Rj Hej Nj Mj eq_refl). rewrite <- E in *. rewrite Ei in *. lia.
      * rewrite Mi. destruct (Z.ltb_spec 0 (nv j)); [|lia]. destruct (Z.ltb_spec 0 (nv i)); [lia|].
        pose proof (mc_lt (rep i) i Ri Hei Ni Mi eq_refl). rewrite E in *. rewrite Ej in *. lia.
      * rewrite Mi, Mj. destruct (Z.ltb_spec 0 (nv j)); [lia|]. destruct (Z.ltb_spec 0 (nv i)); [lia|].
        rewrite <- E. assert (mc (rep i) i < mc (rep i) j); [|lia]. apply cnt0_lt; auto. rewrite Mi, Z.eqb_refl. auto.
    + assert (order (rep i) <> order (rep j)) by (intros X; apply Ne; apply N; auto).
      destruct (Z_lt_dec (order (rep i)) (order (rep j))) as [L|L].
      * pose proof (bs_sep _ _ Hei Ni L). lia.
      * pose proof (bs_sep (rep j) (rep i) Hej Nj ltac:(lia)). lia.
Qed.

Lemma pos_inj i j : 0 <= i < n -> 0 <= j < n -> pos i = pos j -> i = j.
Proof.
  intros Hi Hj E. destruct (Z.lt_trichotomy i j) as [L|[L|L]]; auto; exfalso.
  - apply (pos_ne i j); auto; lia.
  - apply (pos_ne j i); auto; lia.
Qed.
End Pos.
