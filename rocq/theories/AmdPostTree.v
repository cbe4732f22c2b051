(** The postorder of the assembly tree: AMD_post_tree (src/amd_post_tree.c:15-120) and the end of AMD_postorder
    (src/amd_postorder.c:180-206). *)
From Coq Require Import ZArith List Lia Bool.
From Verif Require Import Res Lists MAmd AmdBase AmdView AmdLists AmdRestore AmdKids.
Import ListNotations.
Open Scope Z_scope.
Open Scope res_scope.

(** A stack segment with its top first, its bottom at [base]. *)
Fixpoint seg (st : Z -> Z) (l : list Z) (base : Z) : Prop :=
  match l with [] => True | x :: r => st (base + zlen r) = x /\ seg st r base end.

Lemma seg_app st l1 l2 base : seg st (l1 ++ l2) base <-> seg st l1 (base + zlen l2) /\ seg st l2 base.
Proof.
  induction l1 as [|x l1 IH]; simpl; [tauto|]. rewrite IH, zlen_app.
  replace (base + zlen l2 + zlen l1) with (base + (zlen l1 + zlen l2)) by lia. tauto.
Qed.

Lemma seg_fup st l base p x : (p < base \/ base + zlen l <= p) -> seg st l base -> seg (fup st p x) l base.
Proof.
  induction l as [|y l IH]; simpl; auto. rewrite zlen_cons. pose proof (zlen_nonneg l). intros H0 [A B]. split; [rewrite fup_ne; auto; lia|].
  apply IH; auto. lia.
Qed.

Section PostTree.
Variables (n : Z) (par nv dep : Z -> Z) (ch : Z -> list Z) (sib : Z -> Z).
Hypothesis Hn : 0 <= n.
Hypothesis par_ok : forall j, 0 <= j < n -> 0 < nv j -> -1 <= par j < n.
Hypothesis par_elt : forall j, 0 <= j < n -> 0 < nv j -> par j <> -1 -> 0 < nv (par j) /\ dep (par j) < dep j.
Hypothesis dep_ok : forall j, 0 <= j < n -> 0 <= dep j.
Hypothesis HM : MEM n par nv ch.
Hypothesis HB : forall p, 0 <= p < n -> bch sib (ch p) EMPTY.

Record PT (rt : Z) (child order : Z -> Z) (stk don : list Z) : Prop := mkPT {
  p_nd : NoDup (stk ++ don);
  p_rng : forall x, In x (stk ++ don) -> 0 <= x < n /\ 0 < nv x;
  p_ord : forall a x b, don = a ++ x :: b -> order x = zlen a;
  p_un : forall x, 0 <= x < n -> ~ In x don -> order x = -1;
  p_ch : forall x, 0 <= x < n -> child x = hdE (ch x) \/ (child x = -1 /\ incl (ch x) (stk ++ don));
  p_par : forall x, In x (stk ++ don) -> par x <> -1 -> child (par x) = -1;
  p_root : forall x, In x (stk ++ don) -> par x = -1 -> x < rt;
  p_done : forall x, In x don -> incl (ch x) (stk ++ don)
}.

Lemma ch_rng p x : 0 <= p < n -> In x (ch p) -> 0 <= x < n /\ 0 < nv x /\ par x = p.
Proof. intros Hp Hx. apply (HM p Hp) in Hx. auto. Qed.

Lemma ch_len p : 0 <= p < n -> zlen (ch p) <= n.
Proof.
  intros Hp. destruct (HM p Hp) as [ND IN]. assert (zlen (ch p) <= Z.max 0 (n - 0)); [|lia].
  apply NoDup_bounded_length; auto. intros x Hx. apply IN in Hx. tauto.
Qed.

Lemma hd_ch p : 0 <= p < n -> ch p = [] /\ hdE (ch p) = -1 \/ exists x r, ch p = x :: r /\ 0 <= hdE (ch p) < n.
Proof.
  intros Hp. destruct (ch p) as [|x r] eqn:E; [left; auto|]. right. exists x, r. split; auto. cbn [hd].
  apply (ch_rng p); auto. rewrite E. left; auto.
Qed.

Lemma PT_len rt child order stk don : PT rt child order stk don -> zlen stk + zlen don <= n.
Proof.
  intros H. rewrite <- zlen_app. assert (zlen (stk ++ don) <= Z.max 0 (n - 0)); [|lia].
  apply NoDup_bounded_length; [apply H|]. intros x Hx. apply (p_rng _ _ _ _ _ H x Hx).
Qed.

(** The children of the node on top are pushed. *)
Lemma PT_push rt child order i stk don : PT rt child order (i :: stk) don -> child i <> -1 ->
  PT rt (fup child i EMPTY) order (ch i ++ i :: stk) don.
Proof.
  intros H Ci. assert (Ri : 0 <= i < n) by (apply (p_rng _ _ _ _ _ H); left; auto).
  assert (Fr : forall x, In x (ch i) -> ~ In x ((i :: stk) ++ don)).
  { intros x Hx X. destruct (ch_rng i x Ri Hx) as [_ [_ Px]]. apply Ci. rewrite <- Px. apply (p_par _ _ _ _ _ H x X). lia. }
  constructor.
  - rewrite <- app_assoc. apply NoDup_app_iff. split; [apply HM; auto|]. split; [apply H|]. intros x X1 X2. apply (Fr x X1). auto.
  - intros x Hx. rewrite <- app_assoc in Hx. apply in_app_iff in Hx. destruct Hx as [Hx|Hx]; [destruct (ch_rng i x Ri Hx); tauto|]. apply H; auto.
  - apply H.
  - apply H.
  - intros x Hx. unfold fup. destruct (Z.eqb_spec x i) as [->|Ne].
    + right. split; auto. intros y Hy. rewrite <- app_assoc. apply in_app_iff. auto.
    + destruct (p_ch _ _ _ _ _ H x Hx) as [A|[A B]]; [auto|]. right. split; auto. intros y Hy. rewrite <- app_assoc. apply in_app_iff. right. apply B; auto.
  - intros x Hx Px. unfold fup. destruct (Z.eqb_spec (par x) i); auto. rewrite <- app_assoc in Hx. apply in_app_iff in Hx.
    destruct Hx as [Hx|Hx]; [destruct (ch_rng i x Ri Hx); tauto|]. apply H; auto.
  - intros x Hx Px. rewrite <- app_assoc in Hx. apply in_app_iff in Hx. destruct Hx as [Hx|Hx]; [destruct (ch_rng i x Ri Hx) as [_ [_ X]]; lia|]. apply H; auto.
  - intros x Hx y Hy. rewrite <- app_assoc. apply in_app_iff. right. apply (p_done _ _ _ _ _ H x Hx); auto.
Qed.

(** The node on top gets its number. *)
Lemma PT_pop rt child order i stk don : PT rt child order (i :: stk) don -> child i = -1 ->
  PT rt child (fup order i (zlen don)) stk (don ++ [i]).
Proof.
  intros H Ci. assert (Ri : 0 <= i < n) by (apply (p_rng _ _ _ _ _ H); left; auto).
  assert (SM : forall x, In x (stk ++ don ++ [i]) <-> In x ((i :: stk) ++ don)) by (intros x; rewrite !in_app_iff; simpl; tauto).
  pose proof (p_nd _ _ _ _ _ H) as ND. inversion ND as [|? ? Ni ND']; subst. rewrite in_app_iff in Ni.
  constructor.
  - rewrite app_assoc. apply NoDup_app_iff. split; auto. split; [constructor; [simpl; tauto|constructor]|]. intros x X [<-|[]]. apply Ni. apply in_app_iff; auto.
  - intros x Hx. apply H. apply SM; auto.
  - intros a x b E. destruct (exists_last_or b) as [->|[b' [y ->]]].
    + apply app_inj_tail in E. destruct E as [-> ->]. apply fup_eq.
    + rewrite app_comm_cons, app_assoc in E. apply app_inj_tail in E. destruct E as [-> ->]. rewrite fup_ne; [apply (p_ord _ _ _ _ _ H a x b'); auto|].
      intros ->. apply Ni. right. apply in_app_iff. right; left; auto.
  - intros x Hx Nx. rewrite in_app_iff in Nx. rewrite fup_ne by (intros ->; apply Nx; right; left; auto). apply H; auto.
  - intros x Hx. destruct (p_ch _ _ _ _ _ H x Hx) as [A|[A B]]; [auto|]. right. split; auto. intros y Hy. apply SM. apply B; auto.
  - intros x Hx Px. apply H; auto. apply SM; auto.
  - intros x Hx Px. apply H; auto. apply SM; auto.
  - intros x Hx y Hy. apply SM. apply in_app_iff in Hx. destruct Hx as [Hx|[<-|[]]]; [apply (p_done _ _ _ _ _ H x Hx); auto|].
    destruct (p_ch _ _ _ _ _ H i Ri) as [A|[A B]]; [|apply B; auto].
    destruct (hd_ch i Ri) as [[E _]|[z [r [E R]]]]; [rewrite E in Hy; destruct Hy|lia].
Qed.

Lemma PT_start rt child order don root : PT root child order [] don -> 0 <= root < n -> 0 < nv root -> par root = -1 -> root < rt ->
  PT rt child order [root] don.
Proof.
  intros H Hr Nr Pr Lt. simpl in *.
  assert (Fr : ~ In root don) by (intros X; pose proof (p_root _ _ _ _ _ H root X Pr); lia).
  constructor; simpl.
  - constructor; auto. apply H.
  - intros x [<-|Hx]; [auto|apply H; auto].
  - apply H.
  - apply H.
  - intros x Hx. destruct (p_ch _ _ _ _ _ H x Hx) as [A|[A B]]; [auto|right; split; auto]. intros y Hy. right. apply B; auto.
  - intros x [<-|Hx] Px; [tauto|apply H; auto].
  - intros x [<-|Hx] Px; [auto|]. pose proof (p_root _ _ _ _ _ H x Hx Px). lia.
  - intros x Hx y Hy. right. apply (p_done _ _ _ _ _ H x Hx); auto.
Qed.

Definition unexp (child : Z -> Z) : Z := sumz (fun x => if child x =? -1 then 0 else 1) (zr 0 n).

Lemma unexp_nonneg child : 0 <= unexp child.
Proof. apply sumz_nonneg. intros x _. destruct (child x =? -1); lia. Qed.
Lemma unexp_le child : unexp child <= n.
Proof.
  unfold unexp. transitivity (sumz (fun _ : Z => 1) (zr 0 n)); [apply sumz_le; intros x _; destruct (child x =? -1); lia|].
  rewrite sumz_ones, zlen_zr. lia.
Qed.
Lemma unexp_fup child i : 0 <= i < n -> child i <> -1 -> unexp (fup child i EMPTY) = unexp child - 1.
Proof.
  intros Hi Ci. unfold unexp.
  rewrite (sumz_ext (fun x => if fup child i EMPTY x =? -1 then 0 else 1) (fup (fun x => if child x =? -1 then 0 else 1) i 0)).
  - rewrite sumz_fup; [|apply NoDup_zr|apply in_zr; auto]. destruct (Z.eqb_spec (child i) (-1)); [tauto|lia].
  - intros x _. unfold fup. destruct (x =? i); auto.
Qed.

Lemma post_tree_ok rt root Sibling Child Order Stack child order st don (Q : arr Z * arr Z * arr Z * Z -> Prop) :
  is_vec Sibling n sib -> is_vec Child n child -> is_vec Order n order -> is_vec Stack n st ->
  PT root child order [] don -> 0 <= root < n -> 0 < nv root -> par root = -1 -> root < rt ->
  (forall C OO SS child' order' st' don', is_vec C n child' -> is_vec OO n order' -> is_vec SS n st' ->
     PT rt child' order' [] don' -> incl don don' -> In root don' -> Q (C, OO, SS, zlen don')) ->
  wp (post_tree n root Sibling (Child, Order, Stack, zlen don)) Q.
Proof.
  intros VB VC VO VS H0 Hr Nr Pr Lt HQ. unfold post_tree. wb. apply (is_vec_wr _ _ _ _ _ _ VS); [lia|]. intros Stack1 VS1.
  pose proof (PT_start rt child order don root H0 Hr Nr Pr Lt) as H1.
  wb. apply (wp_while_k (fun m '(head, C, OO, SS, k) => exists child order st stk don',
     is_vec C n child /\ is_vec OO n order /\ is_vec SS n st /\ PT rt child order stk don' /\ seg st stk 0 /\ head = zlen stk - 1 /\ k = zlen don' /\
     incl don don' /\ In root (stk ++ don') /\ m = (n - zlen don') + unexp child) ((n - zlen don) + unexp child)).
  - exists child, order, (fup st 0 root), [root], don. split; auto. split; auto. split; auto. split; auto. split; [split; [apply fup_eq|exact I]|].
    split; [reflexivity|]. split; auto. split; [apply incl_refl|]. split; [left; auto|auto].
  - pose proof (unexp_le child). pose proof (zlen_nonneg don). unfold fuel. lia.
  - clear Child VC Order VO Stack VS Stack1 VS1 H0 H1 child order st.
    intros m [[[[head C] OO] SS] k] [child [order [st [stk [don' [VC [VO [VS [H [SG [-> [-> [Inc [Rin ->]]]]]]]]]]]]]].
    pose proof (PT_len _ _ _ _ _ H) as Len. pose proof (unexp_nonneg child). pose proof (zlen_nonneg stk). pose proof (zlen_nonneg don'). split; [lia|]. wok.
    destruct stk as [|i stk].
    { simpl. wok. apply (HQ C OO SS child order st don'); auto. }
    rewrite zlen_cons in *. pose proof (zlen_nonneg stk). destruct (Z.leb_spec 0 (zlen stk + 1 - 1)); [|lia].
    assert (Ri : 0 <= i < n) by (apply (p_rng _ _ _ _ _ H); left; auto). destruct SG as [S1 S2].
    wb. apply (is_vec_rd _ _ _ _ _ VS); [lia|]. replace (st (zlen stk + 1 - 1)) with i by (rewrite <- S1; f_equal; lia).
    wb. apply (is_vec_rd _ _ _ _ _ VC Ri). destruct (Z.eqb_spec (child i) EMPTY) as [Ci|Ci]; simpl negb; cbv iota.
    + wb. apply (is_vec_wr _ _ _ _ _ _ VO Ri). intros OO' VO'. wok. exists ((n - zlen (don' ++ [i])) + unexp child).
      split; [rewrite zlen_app, zlen_cons; change (zlen (@nil Z)) with 0; lia|].
      exists child, (fup order i (zlen don')), st, stk, (don' ++ [i]). split; auto. split; auto. split; auto. split; [apply (PT_pop rt); auto|].
      split; auto. split; [lia|]. split; [rewrite zlen_app; reflexivity|]. split; [intros x Hx; apply in_app_iff; left; auto|]. split; auto.
      simpl in Rin. rewrite !in_app_iff in *. simpl. tauto.
    + destruct (p_ch _ _ _ _ _ H i Ri) as [Ec|[Ec _]]; [|rewrite EMPTY_val in Ci; tauto].
      assert (Lc : zlen (ch i) + zlen (i :: stk) + zlen don' <= n).
      { pose proof (PT_push _ _ _ _ _ _ H Ci) as HPu. apply PT_len in HPu. rewrite zlen_app in HPu. lia. }
      rewrite zlen_cons in Lc. pose proof (HB i Ri) as Bi.
      assert (Rc : forall x, In x (ch i) -> 0 <= x < n) by (intros x Hx; apply (ch_rng i); auto).
      set (l := ch i) in *.
      assert (Sx : forall d x r, l = d ++ x :: r -> 0 <= x < n /\ sib x = hdE r).
      { intros d x r El. split; [apply Rc; rewrite El; apply in_app_iff; right; left; auto|]. rewrite El, bch_app in Bi. destruct Bi as [_ Bi]. cbn [bch] in Bi. tauto. }
      wb. apply (wp_while_k (fun m '(f, h) => exists d r, l = d ++ r /\ f = hdE r /\ h = zlen stk + zlen d /\ m = zlen r) (zlen l)).
      * exists [], l. split; auto. split; auto. split; [change (zlen (@nil Z)) with 0; lia|auto].
      * unfold fuel. lia.
      * intros m [f h] [d [r [El [-> [-> ->]]]]]. split; [apply zlen_nonneg|]. wok. destruct r as [|x r].
        2:{ destruct (Sx d x r El) as [Rx Ex]. cbn [hd]. destruct (Z.eqb_spec x EMPTY) as [X|_]; [rewrite EMPTY_val in X; lia|]. simpl negb. cbv iota.
            wb. apply (is_vec_rd _ _ _ _ _ VB Rx). wok. exists (zlen r). split; [rewrite zlen_cons; lia|]. exists (d ++ [x]), r. rewrite <- app_assoc. split; auto.
            split; auto. split; auto. rewrite zlen_app, zlen_cons. change (zlen (@nil Z)) with 0. lia. }
        cbn [hd]. rewrite Z.eqb_refl. simpl negb. cbv iota. rewrite app_nil_r in El. subst d.
        wb. apply (wp_while_k (fun m '(f, h, SS) => exists d r st', is_vec SS n st' /\ l = d ++ r /\ f = hdE r /\ h = zlen stk + zlen r /\ m = zlen r /\
            seg st' (i :: stk) 0 /\ seg st' d (zlen stk + 1 + zlen r)) (zlen l)).
        -- exists [], l, st. split; auto. split; auto. split; auto. split; auto. split; auto. split; [split; auto|exact I].
        -- unfold fuel. lia.
        -- intros m [[f h] S1'] [d [r [st' [V' [El [-> [-> [-> [G1 G2]]]]]]]]]. split; [apply zlen_nonneg|]. wok. destruct r as [|x r].
           2:{ destruct (Sx d x r El) as [Rx Ex]. cbn [hd]. destruct (Z.eqb_spec x EMPTY) as [X|_]; [rewrite EMPTY_val in X; lia|]. simpl negb. cbv iota.
               assert (Lr : zlen l = zlen d + (zlen r + 1)) by (rewrite El, zlen_app, zlen_cons; lia).
               rewrite zlen_cons. pose proof (zlen_nonneg r). pose proof (zlen_nonneg d).
               wb. apply (is_vec_wr _ _ _ _ _ _ V'); [lia|]. intros SS' V''. wb. apply (is_vec_rd _ _ _ _ _ VB Rx). wok.
               exists (zlen r). split; [lia|]. exists (d ++ [x]), r, (fup st' (zlen stk + (zlen r + 1)) x). rewrite <- app_assoc. split; auto. split; auto. split; auto. split; [lia|]. split; auto.
               split.
               - apply seg_fup; auto. rewrite zlen_cons. lia.
               - apply seg_app. split.
                 + rewrite zlen_cons in *. change (zlen (@nil Z)) with 0. apply seg_fup; [lia|]. replace (zlen stk + 1 + zlen r + (0 + 1)) with (zlen stk + 1 + (zlen r + 1)) by lia. auto.
                 + split; [|exact I]. change (zlen (@nil Z)) with 0. replace (zlen stk + 1 + zlen r + 0) with (zlen stk + (zlen r + 1)) by lia. apply fup_eq. }
           cbn [hd]. rewrite Z.eqb_refl. simpl negb. cbv iota. rewrite app_nil_r in El. subst d.
           wb. apply (is_vec_wr _ _ _ _ _ _ VC Ri). intros C' VC'. wok. exists ((n - zlen don') + unexp (fup child i EMPTY)).
           split; [rewrite unexp_fup by auto; lia|]. exists (fup child i EMPTY), order, st', (l ++ i :: stk), don'.
           split; auto. split; auto. split; auto. split; [apply PT_push; auto|]. split; [apply seg_app; rewrite zlen_cons; change (zlen (@nil Z)) with 0 in G2; split; auto; replace (0 + (zlen stk + 1)) with (zlen stk + 1 + 0) by lia; auto|].
           split; [rewrite zlen_app, zlen_cons; lia|]. split; auto. split; auto. split; [|auto].
           rewrite <- app_assoc. apply in_app_iff. auto.
Qed.

(** All elements get their numbers. *)
Lemma PT_all rt child order don : PT rt child order [] don -> (forall x, 0 <= x < n -> 0 < nv x -> par x = -1 -> In x don) ->
  forall x, 0 <= x < n -> 0 < nv x -> In x don.
Proof.
  intros H R x Hx Nx. remember (Z.to_nat (dep x)) as k eqn:Ek. revert x Ek Hx Nx. induction k as [k IH] using lt_wf_ind. intros x -> Hx Nx.
  destruct (Z.eq_dec (par x) (-1)) as [P|P]; [apply R; auto|]. pose proof (par_ok x Hx Nx). destruct (par_elt x Hx Nx P) as [N2 D2].
  assert (Hp : 0 <= par x < n) by lia. pose proof (dep_ok x Hx). pose proof (dep_ok (par x) Hp).
  assert (Ip : In (par x) don) by (apply (IH (Z.to_nat (dep (par x)))); auto; lia).
  apply (p_done _ _ _ _ _ H (par x) Ip). apply (HM (par x) Hp). auto.
Qed.

Record NUM (order : Z -> Z) (m : Z) : Prop := mkNUM {
  n_m : 0 <= m <= n;
  n_in : forall x, 0 <= x < n -> 0 < nv x -> 0 <= order x < m;
  n_out : forall x, 0 <= x < n -> ~ 0 < nv x -> order x = -1;
  n_inj : forall x y, 0 <= x < n -> 0 <= y < n -> 0 < nv x -> 0 < nv y -> order x = order y -> x = y;
  n_sur : forall k, 0 <= k < m -> exists x, 0 <= x < n /\ 0 < nv x /\ order x = k
}.

Lemma PT_num rt child order don : PT rt child order [] don -> (forall x, 0 <= x < n -> 0 < nv x -> In x don) -> NUM order (zlen don).
Proof.
  intros H A. pose proof (PT_len _ _ _ _ _ H) as L. change (zlen (@nil Z)) with 0 in L. pose proof (zlen_nonneg don). constructor.
  - lia.
  - intros x Hx Nx. destruct (in_split _ _ (A x Hx Nx)) as [a [b E]]. rewrite (p_ord _ _ _ _ _ H a x b E). rewrite E, zlen_app, zlen_cons.
    pose proof (zlen_nonneg a). pose proof (zlen_nonneg b). lia.
  - intros x Hx Nx. apply H; auto. intros X. apply Nx. apply (p_rng _ _ _ _ _ H x X).
  - intros x y Hx Hy Nx Ny E. destruct (in_split _ _ (A x Hx Nx)) as [a [b E1]]. destruct (in_split _ _ (A y Hy Ny)) as [a' [b' E2]].
    rewrite (p_ord _ _ _ _ _ H a x b E1), (p_ord _ _ _ _ _ H a' y b' E2) in E.
    assert (L' : length a = length a') by (unfold zlen in E; lia). rewrite E1 in E2.
    assert (X : nth (length a) (a ++ x :: b) 0 = nth (length a) (a' ++ y :: b') 0) by (rewrite E2; auto).
    rewrite nth_middle in X. rewrite L', nth_middle in X. auto.
  - intros k Hk. assert (Lk : (Z.to_nat k < length don)%nat) by (unfold zlen in Hk; lia).
    pose proof (nth_In don 0 Lk) as I1. exists (nth (Z.to_nat k) don 0). destruct (p_rng _ _ _ _ _ H _ I1) as [R1 R2]. split; auto. split; auto.
    destruct (nth_split don 0 Lk) as [a [b [E El]]]. rewrite (p_ord _ _ _ _ _ H a _ b E). unfold zlen. lia.
Qed.
End PostTree.

(** ** AMD_postorder *)
Lemma AMD_postorder_ok n par nv dep fs Parent Nv Fsize Order Child Sibling Stack (st : Z -> Z) (Q : arr Z * arr Z * arr Z * arr Z -> Prop) :
  0 <= n -> (forall j, 0 <= j < n -> 0 < nv j -> -1 <= par j < n) ->
  (forall j, 0 <= j < n -> 0 < nv j -> par j <> -1 -> 0 < nv (par j) /\ dep (par j) < dep j) -> (forall j, 0 <= j < n -> 0 <= dep j) ->
  (forall x, 0 <= x < n -> 0 < nv x -> 0 <= fs x) ->
  is_vec Parent n par -> is_vec Nv n nv -> is_vec Fsize n fs -> zlen Order = n -> zlen Child = n -> zlen Sibling = n -> is_vec Stack n st ->
  (forall OO C B SS order m child sib st', is_vec OO n order -> is_vec C n child -> is_vec B n sib -> is_vec SS n st' -> NUM n nv order m -> Q (OO, C, B, SS)) ->
  wp (AMD_postorder n Parent Nv Fsize Order Child Sibling Stack) Q.
Proof.
  intros Hn Pok Pel Dok Fpos VP VN VF LO LC LB VS HQ. unfold AMD_postorder. wb.
  apply (wp_for_le (fun k '(C, B) => is_pre C n k (fun _ => EMPTY) /\ is_pre B n k (fun _ => EMPTY))); auto.
  { split; apply is_pre_0; auto. }
  { intros k [C B] Hk [V1 V2]. wb. apply (is_pre_wr_next _ _ _ _ _ _ V1); auto. intros C' V1'. wb. apply (is_pre_wr_next _ _ _ _ _ _ V2); auto. intros B' V2'. wok. auto. }
  intros [C0 B0] [V1 V2]. apply is_pre_vec in V1. apply is_pre_vec in V2.
  wb. apply (link_kids_ok n par nv Hn Pok Parent Nv C0 B0); auto. clear C0 B0 V1 V2. intros C B child sib V1 V2 HF.
  pose proof (MEM_kids n par nv) as HM.
  wb. apply (order_kids_ok n par nv Hn Fsize fs Nv C B child sib (kids n par nv 0)); auto. clear C B child sib V1 V2 HF HM. intros C B child sib ch V1 V2 HF HM.
  wb. apply (wp_fill_pre Order n (fun _ => EMPTY)); auto.
  { intros k a Hk Va. apply (is_pre_wr_next _ _ _ _ _ _ Va); auto. }
  intros OO VO. assert (HBc : forall p, 0 <= p < n -> bch sib (ch p) EMPTY) by (intros p Hp; apply HF; auto). wb.
  apply (wp_for_le (fun i '(C, OO, SS, k) => exists child order st' don, is_vec C n child /\ is_vec OO n order /\ is_vec SS n st' /\
     PT n par nv ch i child order [] don /\ k = zlen don /\ forall x, 0 <= x < i -> 0 < nv x -> par x = -1 -> In x don)); auto.
  - exists child, (fun _ => EMPTY), st, []. split; auto. split; auto. split; auto. split; [|split; [auto|intros; lia]]. constructor; simpl; try tauto.
    + constructor.
    + intros a x b E. destruct a; discriminate.
    + intros x Hx. left. apply HF; auto.
  - clear child V1 HF C OO VO. intros i [[[C OO] SS] k] Hi [child [order [st' [don [V1 [VO [VS' [H [-> R]]]]]]]]].
    wb. apply (is_vec_rd _ _ _ _ _ VP); [lia|]. wb. apply (is_vec_rd _ _ _ _ _ VN); [lia|]. rewrite EMPTY_val.
    assert (Mono : PT n par nv ch (i + 1) child order [] don).
    { destruct H as [h1 h2 h3 h4 h5 h6 h7 h8]. constructor; auto. intros x Hx Px. specialize (h7 x Hx Px). lia. }
    destruct (Z.eqb_spec (par i) (-1)) as [Pi|Pi]; simpl andb; [destruct (Z.ltb_spec 0 (nv i)) as [Ni|Ni]|].
    + apply (post_tree_ok n par nv ch sib Hn HM HBc (i + 1) i B C OO SS child order st' don); auto; [lia|].
      intros C' OO' SS0' child2 order2 st2 don2 W1 W2 W3 H2 I2 R2. exists child2, order2, st2, don2. split; auto. split; auto. split; auto. split; auto. split; auto.
      intros x Hx Nx Px. destruct (Z.eq_dec x i) as [->|]; auto. apply I2. apply R; auto. lia.
    + wok. exists child, order, st', don. split; auto. split; auto. split; auto. split; auto. split; auto. intros x Hx Nx Px. destruct (Z.eq_dec x i) as [->|]; [lia|]. apply R; auto. lia.
    + wok. exists child, order, st', don. split; auto. split; auto. split; auto. split; auto. split; auto. intros x Hx Nx Px. destruct (Z.eq_dec x i) as [->|]; [lia|]. apply R; auto. lia.
  - intros [[[C' OO'] SS0'] k] [child2 [order [st' [don [W1 [W2 [W3 [H [-> R]]]]]]]]]. wok.
    apply (HQ OO' C' B SS0' order (zlen don) child2 sib st'); auto.
    apply (PT_num n par nv ch Hn n child2 order don H). apply (PT_all n par nv dep ch Pok Pel Dok HM n child2 order don H). auto.
Qed.
