(** The children lists built by AMD_postorder (src/amd_postorder.c:58-171). *)
From Coq Require Import ZArith List Lia Bool Permutation.
From Verif Require Import Res Lists MAmd AmdBase AmdView AmdLists.
Import ListNotations.
Open Scope Z_scope.
Open Scope res_scope.

(** A loop with a measure that is not a function of the state. *)
Lemma wp_while_k {S} (Inv : Z -> S -> Prop) k fuel (cond : S -> res bool) (body : S -> res S) s (Q : S -> Prop) :
  Inv k s -> k < Z.of_nat fuel ->
  (forall k s, Inv k s -> 0 <= k /\ wp (cond s) (fun b => if b : bool then wp (body s) (fun s' => exists k', k' < k /\ Inv k' s') else Q s)) ->
  wp (while_ fuel cond body s) Q.
Proof.
  revert k s. induction fuel as [|f IH]; intros k s HI Hm Hs.
  - destruct (Hs k s HI). lia.
  - simpl. apply wp_bind. destruct (Hs k s HI) as [H0 H1]. eapply wp_mono; [exact H1|].
    intros [|] H; [|exact H]. apply wp_bind. eapply wp_mono; [exact H|]. intros s' [k' [Hk HI']]. apply (IH k'); auto. lia.
Qed.

Section Kids.
Variables (n : Z) (par nv : Z -> Z).
Hypothesis Hn : 0 <= n.
Hypothesis par_ok : forall j, 0 <= j < n -> 0 < nv j -> -1 <= par j < n.

Definition kid (p x : Z) : bool := (0 <? nv x) && (par x =? p).
Definition kids (lo p : Z) : list Z := filter (kid p) (zr lo n).

Lemma in_kids lo p x : In x (kids lo p) <-> lo <= x < n /\ 0 < nv x /\ par x = p.
Proof. unfold kids. rewrite filter_In, in_zr. unfold kid. rewrite andb_true_iff, Z.ltb_lt, Z.eqb_eq. tauto. Qed.

Definition FAM (child sib : Z -> Z) (ch : Z -> list Z) : Prop :=
  forall p, 0 <= p < n -> child p = hdE (ch p) /\ bch sib (ch p) EMPTY.

Definition MEM (ch : Z -> list Z) : Prop :=
  forall p, 0 <= p < n -> NoDup (ch p) /\ forall x, In x (ch p) <-> 0 <= x < n /\ 0 < nv x /\ par x = p.

Lemma link_kids_ok Parent Nv Child Sibling (Q : arr Z * arr Z -> Prop) :
  is_vec Parent n par -> is_vec Nv n nv -> is_vec Child n (fun _ => EMPTY) -> is_vec Sibling n (fun _ => EMPTY) ->
  (forall C SB child sib, is_vec C n child -> is_vec SB n sib -> FAM child sib (kids 0) -> Q (C, SB)) ->
  wp (for_ 0 n (fun k '(Child, Sibling) =>
    let j := n - 1 - k in
    nv <- rd Nv j ;;
    if 0 <? nv then
      parent <- rd Parent j ;;
      if negb (parent =? EMPTY) then
        c <- rd Child parent ;; Sibling <- wr Sibling j c ;; Child <- wr Child parent j ;; Ok (Child, Sibling)
      else Ok (Child, Sibling)
    else Ok (Child, Sibling)) (Child, Sibling)) Q.
Proof.
  intros VP VN VC VS HQ.
  apply (wp_for_le (fun k '(C, SB) => exists child sib, is_vec C n child /\ is_vec SB n sib /\ FAM child sib (kids (n - k)))); auto.
  - exists (fun _ => EMPTY), (fun _ => EMPTY). split; auto. split; auto. intros p Hp. unfold kids. rewrite zr_nil by lia. split; reflexivity.
  - intros k [C SB] Hk [child [sib [V1 [V2 H]]]]. cbv zeta. set (j := n - 1 - k). assert (Hj : 0 <= j < n) by (unfold j; lia).
    assert (Ek : forall p, kids (n - (k + 1)) p = if kid p j then j :: kids (n - k) p else kids (n - k) p).
    { intros p. unfold kids. rewrite (zr_cons (n - (k + 1))) by lia. replace (n - (k + 1) + 1) with (n - k) by lia.
      replace (n - (k + 1)) with j by (unfold j; lia). reflexivity. }
    wb. apply (is_vec_rd _ _ _ _ _ VN Hj). destruct (Z.ltb_spec 0 (nv j)) as [Nj|Nj].
    + wb. apply (is_vec_rd _ _ _ _ _ VP Hj). rewrite EMPTY_val. pose proof (par_ok j Hj Nj) as Pj. destruct (Z.eqb_spec (par j) (-1)) as [Ep|Ep]; simpl negb; cbv iota.
      * wok. exists child, sib. split; auto. split; auto. intros p Hp. rewrite Ek. unfold kid. destruct (Z.eqb_spec (par j) p); [lia|]. rewrite andb_false_r. auto.
      * assert (Rp : 0 <= par j < n) by lia. wb. apply (is_vec_rd _ _ _ _ _ V1 Rp). wb. apply (is_vec_wr _ _ _ _ _ _ V2 Hj). intros S' V2'.
        wb. apply (is_vec_wr _ _ _ _ _ _ V1 Rp). intros C' V1'. wok. exists (fup child (par j) j), (fup sib j (child (par j))). split; auto. split; auto.
        intros p Hp. rewrite Ek. unfold kid. destruct (Z.ltb_spec 0 (nv j)); [|lia]. simpl andb. destruct (H p Hp) as [H1 H2].
        assert (FR : bch (fup sib j (child (par j))) (kids (n - k) p) EMPTY).
        { apply (bch_frame sib); auto. intros x Hx. apply fup_ne. apply in_kids in Hx. unfold j. lia. }
        destruct (Z.eqb_spec (par j) p) as [E|E].
        -- subst p. rewrite fup_eq. cbn [hd bch]. rewrite fup_eq. auto.
        -- rewrite fup_ne by auto. auto.
    + wok. exists child, sib. split; auto. split; auto. intros p Hp. rewrite Ek. unfold kid. destruct (Z.ltb_spec 0 (nv j)); [lia|]. apply H; auto.
  - intros [C SB] [child [sib [V1 [V2 H]]]]. apply (HQ C SB child sib); auto. replace (n - n) with 0 in H by lia. auto.
Qed.

Lemma MEM_kids : MEM (kids 0).
Proof. intros p Hp. split; [apply NoDup_filter; apply NoDup_zr|]. intros x. apply in_kids. Qed.

(** A child with the largest front goes to the end. *)
Lemma move_last sib a big b x l2 : NoDup (a ++ big :: b ++ [x]) -> bch sib (a ++ big :: b ++ [x]) EMPTY ->
  l2 = b ++ [x] ->
  let sib1 := if List.last a (-1) =? -1 then sib else fup sib (List.last a (-1)) (hdE l2) in
  (forall y, In y a -> 0 <= y) ->
  bch (fup (fup sib1 big EMPTY) x big) (a ++ l2 ++ [big]) EMPTY.
Proof.
  intros ND HB El sib1 Pa. subst l2.
  assert (ND' := ND). apply NoDup_app_iff in ND'. destruct ND' as [Na [Nb Dis]]. inversion Nb as [|? ? Nbig Nbx]; subst.
  assert (Nx : ~ In x b) by (apply NoDup_app_iff in Nbx; destruct Nbx as [_ [_ D]]; intros X; apply (D x X); left; auto).
  assert (Ax : ~ In x a) by (intros X; apply (Dis x X); right; apply in_app_iff; right; left; auto).
  assert (Ab : ~ In big a) by (intros X; apply (Dis big X); left; auto).
  assert (Xb : x <> big) by (intros ->; apply Nbig; apply in_app_iff; right; left; auto).
  rewrite bch_app in HB. destruct HB as [B1 B2]. cbn [hd] in B1. cbn [bch] in B2. destruct B2 as [B2 B3]. rewrite bch_app in B3. destruct B3 as [B3 _]. cbn [hd] in B3.
  rewrite bch_app. split.
  - destruct (exists_last_or a) as [->|[u [y ->]]]; [exact I|]. unfold sib1. rewrite last_snoc.
    destruct (Z.eqb_spec y (-1)) as [E|E]; [exfalso; pose proof (Pa y ltac:(apply in_app_iff; right; left; auto)); lia|].
    rewrite bch_app in B1 |- *. destruct B1 as [C1 C2]. cbn [hd] in C1. cbn [hd]. split.
    + apply (bch_frame sib); auto. intros z Hz. rewrite !fup_ne; auto.
      * intros ->. apply NoDup_app_iff in Na. destruct Na as [_ [_ D]]. apply (D y Hz). left; auto.
      * intros ->. apply Ab. apply in_app_iff; auto.
      * intros ->. apply Ax. apply in_app_iff; auto.
    + cbn [bch hd]. split; auto. rewrite fup_ne; [rewrite fup_ne|].
      * rewrite fup_eq. destruct b; reflexivity.
      * intros ->. apply Ab. apply in_app_iff; right; left; auto.
      * intros ->. apply Ax. apply in_app_iff; right; left; auto.
  - rewrite bch_app. split.
    + rewrite bch_app. cbn [hd]. split.
      * apply (bch_frame sib); auto. intros z Hz. rewrite fup_ne by (intros ->; tauto). rewrite fup_ne by (intros ->; apply Nbig; apply in_app_iff; auto).
        unfold sib1. destruct (Z.eqb_spec (List.last a (-1)) (-1)); auto. rewrite fup_ne; auto. intros ->. destruct a as [|a0 a']; [simpl in *; congruence|].
        apply (Dis (List.last (a0 :: a') (-1))); [apply last_in; discriminate|]. right. apply in_app_iff; auto.
      * cbn [bch hd]. split; auto. apply fup_eq.
    + cbn [bch hd]. split; auto. rewrite fup_ne by auto. apply fup_eq.
Qed.

Lemma biggest_last_ok Fsize fs i Child Sibling child sib ch (Q : arr Z * arr Z -> Prop) :
  is_vec Fsize n fs -> (forall x, 0 <= x < n -> 0 < nv x -> 0 <= fs x) ->
  is_vec Child n child -> is_vec Sibling n sib -> FAM child sib ch -> MEM ch -> 0 <= i < n -> ch i <> [] ->
  (forall C SB child' sib' ch', is_vec C n child' -> is_vec SB n sib' -> FAM child' sib' ch' -> MEM ch' -> Q (C, SB)) ->
  wp (biggest_last n Fsize i (Child, Sibling)) Q.
Proof.
  intros VF Fpos VC VS HF HM Hi Hne HQ. unfold biggest_last. wb. apply (is_vec_rd _ _ _ _ _ VC Hi).
  destruct (HF i Hi) as [E1 B1]. destruct (HM i Hi) as [ND IN]. set (l := ch i) in *.
  assert (Rl : forall x, In x l -> 0 <= x < n /\ 0 < nv x) by (intros x Hx; apply IN in Hx; tauto).
  assert (Ll : zlen l <= n). { assert (zlen l <= Z.max 0 (n - 0)) by (apply NoDup_bounded_length; auto; intros; apply Rl; auto). lia. }
  wb. apply (wp_while_k (fun k '(f, fprev, mx, bp, bf) => exists d r, l = d ++ r /\ k = zlen r /\ f = hdE r /\ fprev = List.last d (-1) /\
     (d = [] /\ mx = -1 \/ exists a b, d = a ++ bf :: b /\ bp = List.last a (-1))) (zlen l)).
  - exists [], l. split; auto. split; auto.
  - unfold fuel. lia.
  - intros k [[[[f fprev] mx] bp] bf] [d [r [El [-> [-> [-> Hd]]]]]]. split; [apply zlen_nonneg|]. wok.
    destruct r as [|y r].
    + cbn [hd]. rewrite Z.eqb_refl. simpl negb. cbv iota. rewrite app_nil_r in El. subst d.
      destruct Hd as [[X _]|[a [b [El ->]]]]; [congruence|].
      assert (Rb : 0 <= bf < n) by (apply Rl; rewrite El; apply in_app_iff; right; left; auto).
      wb. apply (is_vec_rd _ _ _ _ _ VS Rb).
      assert (Sb : sib bf = hdE b). { rewrite El, bch_app in B1. destruct B1 as [_ B1]. cbn [bch] in B1. tauto. }
      rewrite Sb. destruct (exists_last_or b) as [->|[b' [x ->]]].
      { cbn [hd]. rewrite Z.eqb_refl. simpl negb. cbv iota. wok. apply (HQ Child Sibling child sib ch); auto. }
      assert (Hh : exists h, hdE (b' ++ [x]) = h /\ 0 <= h < n).
      { exists (hdE (b' ++ [x])). split; auto. apply Rl. rewrite El. apply in_app_iff. right. right. destruct b'; [left; auto|left; auto]. }
      destruct Hh as [h [Eh Rh]]. rewrite Eh. destruct (Z.eqb_spec h EMPTY) as [X|_]; [rewrite EMPTY_val in X; lia|]. simpl negb. cbv iota.
      assert (Elast : List.last l (-1) = x) by (rewrite El, app_comm_cons, app_assoc; apply last_snoc). rewrite Elast.
      assert (Rx : 0 <= x < n) by (apply Rl; rewrite El; apply in_app_iff; right; right; apply in_app_iff; right; left; auto).
      assert (Pa : forall y, In y a -> 0 <= y < n) by (intros y Hy; apply Rl; rewrite El; apply in_app_iff; auto).
      set (l2 := b' ++ [x]) in *.
      set (sib1 := if List.last a (-1) =? -1 then sib else fup sib (List.last a (-1)) (hdE l2)).
      set (child1 := if List.last a (-1) =? -1 then fup child i h else child).
      assert (FIN : forall C SB, is_vec C n child1 -> is_vec SB n (fup (fup sib1 bf EMPTY) x bf) -> Q (C, SB)).
      { intros C SB V1 V2. apply (HQ C SB child1 (fup (fup sib1 bf EMPTY) x bf) (lset ch i (a ++ l2 ++ [bf]))); auto.
        - intros p Hp. destruct (Z.eq_dec p i) as [->|Np].
          + rewrite lset_eq. split.
            * unfold child1. destruct (exists_last_or a) as [->|[u [y ->]]].
              -- simpl (List.last [] (-1)). rewrite Z.eqb_refl, fup_eq. rewrite <- Eh. rewrite app_nil_l, hd_app. unfold l2. destruct b'; reflexivity.
              -- rewrite last_snoc. destruct (Z.eqb_spec y (-1)) as [X|_]; [exfalso; pose proof (Pa y ltac:(apply in_app_iff; right; left; auto)); lia|].
                 rewrite E1, El. rewrite <- !app_assoc. destruct u; reflexivity.
            * unfold sib1. unfold l2 in El. apply (move_last sib a bf b' x l2); auto; [rewrite <- El; auto|rewrite <- El; auto|intros y Hy; apply Pa; auto].
          + rewrite lset_ne by auto. destruct (HF p Hp) as [F1 F2]. destruct (HM p Hp) as [M1 M2]. split.
            * unfold child1. destruct (Z.eqb_spec (List.last a (-1)) (-1)); auto. rewrite fup_ne; auto.
            * apply (bch_frame sib); auto. intros z Hz. apply M2 in Hz.
              assert (Nl : ~ In z l) by (intros X; apply IN in X; destruct X as [_ [_ X]]; destruct Hz as [_ [_ Hz]]; congruence).
              rewrite fup_ne by (intros ->; apply Nl; rewrite El; apply in_app_iff; right; right; apply in_app_iff; right; left; auto).
              rewrite fup_ne by (intros ->; apply Nl; rewrite El; apply in_app_iff; right; left; auto).
              unfold sib1. destruct (Z.eqb_spec (List.last a (-1)) (-1)) as [|X]; auto. apply fup_ne. intros ->. apply Nl. rewrite El. apply in_app_iff. left.
              destruct a; [simpl in X; congruence|]. apply last_in. discriminate.
        - intros p Hp. destruct (Z.eq_dec p i) as [->|Np]; [rewrite lset_eq|rewrite lset_ne by auto; apply HM; auto].
          assert (Pm : Permutation l (a ++ l2 ++ [bf])). { rewrite El. apply Permutation_app_head. apply Permutation_cons_append. }
          split; [apply (Permutation_NoDup Pm); auto|]. intros z. rewrite <- IN. split; intros Hz; [apply (Permutation_in _ (Permutation_sym Pm) Hz)|apply (Permutation_in _ Pm Hz)]. }
      wb. unfold child1, sib1 in FIN. clear child1 sib1. rewrite EMPTY_val in *. destruct (Z.eqb_spec (List.last a (-1)) (-1)) as [Ea|Ea].
      * wb. apply (is_vec_wr _ _ _ _ _ _ VC Hi). intros C V1. wok. wok.
        wb. apply (is_vec_wr _ _ _ _ _ _ VS Rb). intros SB V2. wb. apply (is_vec_wr _ _ _ _ _ _ V2 Rx). intros S' V3. wok. apply FIN; auto.
      * wb. apply (is_vec_wr _ _ _ _ _ _ VS); [destruct a; [simpl in Ea; congruence|]; apply Pa; apply last_in; discriminate|]. intros S0 V0. wok. wok.
        wb. apply (is_vec_wr _ _ _ _ _ _ V0 Rb). intros SB V2. wb. apply (is_vec_wr _ _ _ _ _ _ V2 Rx). intros S' V3. wok. rewrite Eh in FIN. apply FIN; auto.
    + cbn [hd]. destruct (Rl y ltac:(rewrite El; apply in_app_iff; right; left; auto)) as [Ry Ny].
      destruct (Z.eqb_spec y EMPTY) as [X|_]; [rewrite EMPTY_val in X; lia|]. simpl negb. cbv iota.
      wb. apply (is_vec_rd _ _ _ _ _ VF Ry). wb. apply (is_vec_rd _ _ _ _ _ VS Ry).
      assert (Sy : sib y = hdE r). { rewrite El, bch_app in B1. destruct B1 as [_ B1]. cbn [bch] in B1. tauto. }
      rewrite Sy. pose proof (Fpos y Ry Ny).
      destruct (Z.leb_spec mx (fs y)) as [L|L]; wok; exists (zlen r); (split; [rewrite zlen_cons; lia|]);
        exists (d ++ [y]), r; rewrite <- app_assoc; (split; [auto|]); (split; [auto|]); (split; [auto|]); (split; [rewrite last_snoc; auto|]); right.
      * exists d, []. auto.
      * destruct Hd as [[_ X]|[a [b [-> ->]]]]; [lia|]. exists a, (b ++ [y]). rewrite <- app_assoc. auto.
Qed.

Lemma order_kids_ok Fsize fs Nv Child Sibling child sib ch (Q : arr Z * arr Z -> Prop) :
  is_vec Fsize n fs -> (forall x, 0 <= x < n -> 0 < nv x -> 0 <= fs x) -> is_vec Nv n nv ->
  is_vec Child n child -> is_vec Sibling n sib -> FAM child sib ch -> MEM ch ->
  (forall C SB child' sib' ch', is_vec C n child' -> is_vec SB n sib' -> FAM child' sib' ch' -> MEM ch' -> Q (C, SB)) ->
  wp (for_ 0 n (fun i '(Child, Sibling) =>
    nv <- rd Nv i ;;
    if 0 <? nv then
      c <- rd Child i ;;
      if negb (c =? EMPTY) then biggest_last n Fsize i (Child, Sibling) else Ok (Child, Sibling)
    else Ok (Child, Sibling)) (Child, Sibling)) Q.
Proof.
  intros VF Fpos VN VC VS HF HM HQ.
  apply (wp_for_le (fun _ '(C, SB) => exists child sib ch, is_vec C n child /\ is_vec SB n sib /\ FAM child sib ch /\ MEM ch)); auto.
  - exists child, sib, ch. auto.
  - clear - Hn VF Fpos VN. intros i [C SB] Hi [child [sib [ch [V1 [V2 [HF HM]]]]]]. wb. apply (is_vec_rd _ _ _ _ _ VN Hi).
    destruct (0 <? nv i); [|wok; exists child, sib, ch; auto]. wb. apply (is_vec_rd _ _ _ _ _ V1 Hi).
    destruct (Z.eqb_spec (child i) EMPTY) as [E|E]; simpl negb; cbv iota; [wok; exists child, sib, ch; auto|].
    apply (biggest_last_ok Fsize fs i C SB child sib ch); auto.
    { intros X. destruct (HF i Hi) as [Y _]. rewrite X in Y. auto. }
    intros C' S' c' s' ch' W1 W2 W3 W4. exists c', s', ch'. auto.
  - intros [C SB] [c' [s' [ch' [W1 [W2 [W3 W4]]]]]]. apply (HQ C SB c' s' ch'); auto.
Qed.
End Kids.
