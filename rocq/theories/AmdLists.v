(** The doubly linked degree lists of AMD_2, and the hash buckets that share their list heads. *)
From Coq Require Import ZArith List Lia Bool.
From Verif Require Import Res Lists MAmd AmdBase AmdView.
Import ListNotations.
Open Scope Z_scope.
Open Scope res_scope.

Notation hdE := (hd EMPTY).

(** [l] is linked in both directions, with [prev] before it and [nx] after it. *)
Fixpoint dch (next last : Z -> Z) (prev : Z) (l : list Z) (nx : Z) : Prop :=
  match l with
  | [] => True
  | x :: r => last x = prev /\ next x = hd nx r /\ dch next last x r nx
  end.

(** [l] is linked forwards. *)
Fixpoint bch (next : Z -> Z) (l : list Z) (nx : Z) : Prop :=
  match l with
  | [] => True
  | x :: r => next x = hd nx r /\ bch next r nx
  end.

Lemma hd_app {T} (d : T) l1 l2 : hd d (l1 ++ l2) = hd (hd d l2) l1.
Proof. destruct l1; reflexivity. Qed.

Lemma NoDup_app_iff {T} (l1 l2 : list T) :
  NoDup (l1 ++ l2) <-> NoDup l1 /\ NoDup l2 /\ (forall x, In x l1 -> In x l2 -> False).
Proof.
  induction l1 as [|y l1 IH]; simpl.
  - split; [intros H; split; [constructor|split; auto]|tauto].
  - split.
    + intros H. inversion H; subst. destruct (proj1 IH H3) as [A [B C]]. rewrite in_app_iff in H2.
      split; [constructor; tauto|]. split; auto. intros x [->|Hx] H2'; [tauto|eauto].
    + intros [A [B C]]. inversion A; subst. constructor.
      * rewrite in_app_iff. intros [X|X]; [tauto|]. apply (C y); auto.
      * apply IH. split; auto. split; auto. intros x X1 X2. apply (C x); auto.
Qed.
Lemma NoDup_app_remove_l {T} (l1 l2 : list T) : NoDup (l1 ++ l2) -> NoDup l2.
Proof. intros H. apply NoDup_app_iff in H. tauto. Qed.
Lemma NoDup_app_remove_r {T} (l1 l2 : list T) : NoDup (l1 ++ l2) -> NoDup l1.
Proof. intros H. apply NoDup_app_iff in H. tauto. Qed.

Lemma last_cons {T} (l : list T) x d : List.last (x :: l) d = List.last l x.
Proof.
  revert x d. induction l as [|y l IH]; intros x d; [reflexivity|].
  change (List.last (x :: y :: l) d) with (List.last (y :: l) d). rewrite !IH. reflexivity.
Qed.

Lemma last_snoc {T} (l : list T) x d : List.last (l ++ [x]) d = x.
Proof. apply last_last. Qed.

Lemma dch_app next last prev l1 l2 nx :
  dch next last prev (l1 ++ l2) nx <-> dch next last prev l1 (hd nx l2) /\ dch next last (List.last l1 prev) l2 nx.
Proof.
  revert prev. induction l1 as [|x l1 IH]; intros prev; [simpl; tauto|].
  cbn [app dch]. rewrite IH, hd_app.
  replace (List.last (x :: l1) prev) with (List.last l1 x); [tauto|].
  symmetry. apply last_cons.
Qed.

Lemma dch_frame next last next' last' prev l nx :
  (forall x, In x l -> next' x = next x /\ last' x = last x) -> dch next last prev l nx -> dch next' last' prev l nx.
Proof.
  revert prev. induction l as [|x l IH]; intros prev H; simpl; auto. intros [A [B C]].
  destruct (H x (or_introl eq_refl)) as [E1 E2]. rewrite E1, E2. split; auto. split; auto. apply IH; auto.
  intros y Hy. apply H. right; auto.
Qed.

Lemma bch_frame next next' l nx : (forall x, In x l -> next' x = next x) -> bch next l nx -> bch next' l nx.
Proof.
  induction l as [|x l IH]; intros H; simpl; auto. intros [A B]. rewrite (H x) by (left; auto). split; auto.
  apply IH; auto. intros; apply H; right; auto.
Qed.

Lemma bch_app next l1 l2 nx : bch next (l1 ++ l2) nx <-> bch next l1 (hd nx l2) /\ bch next l2 nx.
Proof. induction l1 as [|x l1 IH]; [simpl; tauto|]. cbn [app bch]. rewrite IH, hd_app. tauto. Qed.

(** Degree lists [dl] and buckets [hb]. *)
Record HL (n : Z) (v : vw) (dl hb : Z -> list Z) : Prop := mkHL {
  hl_head : forall d, 0 <= d < n -> vHead v d = match dl d with [] => FLIP (hdE (hb d)) | x :: _ => x end;
  hl_dl : forall d, 0 <= d < n -> dch (vNext v) (vLast v) (hdE (hb d)) (dl d) EMPTY;
  hl_hb : forall d, 0 <= d < n -> bch (vNext v) (hb d) EMPTY;
  hl_rng : forall d x, In x (dl d) \/ In x (hb d) -> 0 <= x < n;
  hl_nd : forall d, NoDup (dl d ++ hb d);
  hl_one : forall d d' x, In x (dl d) \/ In x (hb d) -> In x (dl d') \/ In x (hb d') -> d = d'
}.

Section Ops.
Variables (n iwlen : Z).
Notation Vw := (Vw n iwlen).

Definition lset (f : Z -> list Z) (d : Z) (l : list Z) (x : Z) : list Z := if x =? d then l else f x.
Lemma lset_eq f d l : lset f d l d = l.
Proof. unfold lset. now rewrite Z.eqb_refl. Qed.
Lemma lset_ne f d l x : x <> d -> lset f d l x = f x.
Proof. unfold lset. destruct (Z.eqb_spec x d); congruence. Qed.

(** A change of links, heads that touches only the list d, of which [l] is left. *)
Lemma HL_set v v' dl hb d l : HL n v dl hb -> 0 <= d < n -> incl l (dl d) -> NoDup l ->
  (forall d', 0 <= d' < n -> d' <> d -> vHead v' d' = vHead v d') ->
  (forall x, ~ In x (dl d) -> vNext v' x = vNext v x /\ vLast v' x = vLast v x) ->
  vHead v' d = match l with [] => FLIP (hdE (hb d)) | x :: _ => x end ->
  dch (vNext v') (vLast v') (hdE (hb d)) l EMPTY ->
  HL n v' (lset dl d l) hb.
Proof.
  intros H Hd HI ND E1 E2 E3 E4.
  assert (Out : forall d' x, d' <> d -> In x (dl d') \/ In x (hb d') -> ~ In x (dl d)).
  { intros d' x Ne Hx Hx'. apply Ne. apply (hl_one _ _ _ _ H d' d x); auto. }
  constructor.
  - intros d' Hd'. destruct (Z.eq_dec d' d) as [->|Ne]; [rewrite lset_eq; auto|]. rewrite lset_ne, E1 by auto. apply H; auto.
  - intros d' Hd'. destruct (Z.eq_dec d' d) as [->|Ne]; [rewrite lset_eq; auto|]. rewrite lset_ne by auto.
    apply (dch_frame (vNext v) (vLast v)); [|apply H; auto]. intros x Hx. apply E2. apply (Out d'); auto.
  - intros d' Hd'. apply (bch_frame (vNext v)); [|apply H; auto]. intros x Hx. apply E2.
    destruct (Z.eq_dec d' d) as [->|Ne]; [|apply (Out d'); auto]. intros Hx'.
    pose proof (hl_nd _ _ _ _ H d) as N. clear -N Hx Hx'. induction (dl d) as [|y t IH]; [inversion Hx'|].
    simpl in N. inversion N; subst. destruct Hx' as [->|Hx']; [apply H1, in_app_iff; auto|auto].
  - intros d' x Hx. apply (hl_rng _ _ _ _ H d' x). destruct (Z.eq_dec d' d) as [->|Ne].
    + rewrite lset_eq in Hx. destruct Hx; auto.
    + rewrite lset_ne in Hx by auto. auto.
  - intros d'. destruct (Z.eq_dec d' d) as [->|Ne]; [|rewrite lset_ne by auto; apply H]. rewrite lset_eq.
    pose proof (hl_nd _ _ _ _ H d) as N. revert HI ND. clear -N. induction l as [|x l IH]; intros HI ND; simpl.
    + apply NoDup_app_remove_l in N. auto.
    + inversion ND; subst. constructor; [|apply IH; auto; intros y Hy; apply HI; right; auto].
      intros X. apply in_app_iff in X. destruct X as [X|X]; [auto|]. assert (Y : In x (dl d)) by (apply HI; left; auto).
      clear -N X Y. induction (dl d) as [|y t IH]; [inversion Y|]. simpl in N. inversion N; subst.
      destruct Y as [->|Y]; [apply H1, in_app_iff; auto|auto].
  - intros d1 d2 x H1 H2. apply (hl_one _ _ _ _ H d1 d2 x).
    + destruct (Z.eq_dec d1 d) as [->|Ne]; [rewrite lset_eq in H1; destruct H1; auto|rewrite lset_ne in H1 by auto; auto].
    + destruct (Z.eq_dec d2 d) as [->|Ne]; [rewrite lset_eq in H2; destruct H2; auto|rewrite lset_ne in H2 by auto; auto].
Qed.

Lemma NoDup_app_inv {T} (l1 l2 : list T) x : NoDup (l1 ++ l2) -> In x l1 -> In x l2 -> False.
Proof.
  induction l1 as [|y l1 IH]; intros N H1 H2; [inversion H1|]. simpl in N. inversion N; subst.
  destruct H1 as [->|H1]; [apply H3, in_app_iff; auto|auto].
Qed.

Lemma NoDup_mid {T} (l1 l2 : list T) x : NoDup (l1 ++ x :: l2) -> ~ In x l1 /\ ~ In x l2 /\ NoDup (l1 ++ l2).
Proof.
  intros H. split; [|split].
  - intros X. apply (NoDup_app_inv _ _ x H X). left; auto.
  - apply NoDup_app_remove_l in H. inversion H; auto.
  - eapply NoDup_remove_1; eauto.
Qed.

Lemma last_in {T} (l : list T) d : l <> [] -> In (List.last l d) l.
Proof.
  induction l as [|x l IH]; intros H; [congruence|]. destruct l as [|y l]; [left; auto|].
  right. apply IH. discriminate.
Qed.

Lemma exists_last_or {T} (l : list T) : l = [] \/ exists u y, l = u ++ [y].
Proof. destruct l as [|x l]; [auto|]. right. destruct (exists_last (l := x :: l)) as [u [y E]]; [discriminate|]. eauto. Qed.

(** The effect of taking i off its list, at the level of links. *)
Lemma unlink_links next last l1 i l2 : NoDup (l1 ++ i :: l2) -> dch next last EMPTY (l1 ++ i :: l2) EMPTY ->
  (forall x, In x (l1 ++ i :: l2) -> 0 <= x) ->
  last i = List.last l1 EMPTY /\ next i = hdE l2 /\
  forall next' last',
    (forall x, x <> List.last l1 EMPTY \/ l1 = [] -> next' x = next x) -> (l1 <> [] -> next' (List.last l1 EMPTY) = hdE l2) ->
    (forall x, x <> hdE l2 \/ l2 = [] -> last' x = last x) -> (l2 <> [] -> last' (hdE l2) = List.last l1 EMPTY) ->
    dch next' last' EMPTY (l1 ++ l2) EMPTY.
Proof.
  intros ND H Rg. destruct (NoDup_mid _ _ _ ND) as [N1 [N2 N3]]. apply dch_app in H. simpl in H. destruct H as [H1 [H2 [H3 H4]]].
  split; auto. split; auto. intros next' last' A1 A2 B1 B2. apply dch_app. split.
  - destruct (exists_last_or l1) as [->|[u [y ->]]]; [exact I|].
    rewrite last_snoc in *. assert (Hne : u ++ [y] <> []) by (destruct u; discriminate).
    apply dch_app in H1. simpl in H1. destruct H1 as [H1 [H5 [H6 _]]]. apply dch_app. simpl.
    assert (Nz : forall x, In x (u ++ [y]) -> x <> hdE l2 \/ l2 = []).
    { intros x Hx. destruct l2 as [|z t]; [auto|]. left. simpl. intros ->. apply (NoDup_app_inv _ _ z N3 Hx). left; auto. }
    split; [|split; [|split; auto]].
    + apply (dch_frame next last); auto. intros x Hx. split.
      * apply A1. left. intros ->. apply NoDup_app_remove_r in N3. destruct (NoDup_mid _ _ _ N3) as [X _]. auto.
      * apply B1. apply Nz. apply in_app_iff. auto.
    + rewrite B1; auto. apply Nz. apply in_app_iff. right; left; auto.
  - destruct l2 as [|z t]; [exact I|]. simpl in *. destruct H4 as [H4 [H5 H6]].
    assert (Ny : forall x, In x (z :: t) -> x <> List.last l1 EMPTY \/ l1 = []).
    { intros x Hx. destruct (exists_last_or l1) as [->|[u [y ->]]]; [auto|]. left. rewrite last_snoc. intros ->.
      apply (NoDup_app_inv _ _ y N3); [apply in_app_iff; right; left; auto|auto]. }
    split; [apply B2; discriminate|]. split; [rewrite A1; auto; apply Ny; left; auto|].
    apply (dch_frame next last); auto. intros x Hx. split; [apply A1, Ny; right; auto|].
    apply B1. left. intros ->. apply NoDup_app_remove_l in N3. inversion N3; auto.
Qed.

(** Taking a variable off its degree list. *)
Lemma unlink_ok s v dl i l1 l2 d (Q : ast -> Prop) : Vw s v -> HL n v dl (fun _ => []) -> 0 <= d < n ->
  dl d = l1 ++ i :: l2 -> vDeg v i = d ->
  (forall s' nx la hd', let v' := uHead (uLast (uNext v nx) la) hd' in
     Vw s' v' -> HL n v' (lset dl d (l1 ++ l2)) (fun _ => []) -> Q s') ->
  wp (unlink s i) Q.
Proof.
  intros V H Hd E Ed HQ.
  assert (Rg : forall x, In x (l1 ++ i :: l2) -> 0 <= x < n).
  { intros x Hx. apply (hl_rng _ _ _ _ H d). left. rewrite E. auto. }
  assert (ND : NoDup (l1 ++ i :: l2)). { rewrite <- E. pose proof (hl_nd _ _ _ _ H d) as N. rewrite app_nil_r in N. auto. }
  assert (Hi : 0 <= i < n) by (apply Rg, in_app_iff; right; left; auto).
  pose proof (hl_dl _ _ _ _ H d Hd) as C. rewrite E in C. simpl in C.
  destruct (unlink_links _ _ _ _ _ ND C ltac:(intros x Hx; apply Rg in Hx; lia)) as [E1 [E2 HC]].
  destruct (NoDup_mid _ _ _ ND) as [N1 [N2 N3]].
  unfold unlink. ard. ard. rewrite E1, E2.
  assert (St : forall nx la hd',
    (forall x, x <> List.last l1 EMPTY \/ l1 = [] -> nx x = vNext v x) -> (l1 <> [] -> nx (List.last l1 EMPTY) = hdE l2) ->
    (forall x, x <> hdE l2 \/ l2 = [] -> la x = vLast v x) -> (l2 <> [] -> la (hdE l2) = List.last l1 EMPTY) ->
    (forall d', d' <> d -> hd' d' = vHead v d') -> hd' d = hdE (l1 ++ l2) ->
    HL n (uHead (uLast (uNext v nx) la) hd') (lset dl d (l1 ++ l2)) (fun _ => [])).
  { intros nx la hd' A1 A2 B1 B2 C1 C2. apply (HL_set v); auto.
    - rewrite E. intros x Hx. apply in_app_iff in Hx. apply in_app_iff. simpl. tauto.
    - intros x Hx. rewrite E in Hx. split; vs.
      + apply A1. destruct (exists_last_or l1) as [->|[u [y ->]]]; [auto|]. left. rewrite last_snoc. intros ->. apply Hx.
        rewrite !in_app_iff. simpl. auto.
      + apply B1. destruct l2 as [|z t]; [auto|]. left. simpl. intros ->. apply Hx. rewrite in_app_iff. simpl. auto. }
  assert (Hl1 : l1 = [] /\ List.last l1 EMPTY = EMPTY \/ l1 <> [] /\ 0 <= List.last l1 EMPTY < n).
  { destruct (exists_last_or l1) as [->|[u [y ->]]]; [left; auto|]. right. rewrite last_snoc. split; [destruct u; discriminate|].
    apply Rg. rewrite !in_app_iff. simpl. auto. }
  assert (Hl2 : l2 = [] /\ hdE l2 = EMPTY \/ l2 <> [] /\ 0 <= hdE l2 < n).
  { destruct l2 as [|z t]; [left; auto|]. right. simpl. split; [discriminate|]. apply Rg. rewrite in_app_iff. simpl. auto. }
  assert (Vid : v = uLast v (vLast v)) by (destruct v; reflexivity).
  assert (Fin : forall s' la,
    Vw s' (uLast v la) ->
    (forall x, x <> hdE l2 \/ l2 = [] -> la x = vLast v x) -> (l2 <> [] -> la (hdE l2) = List.last l1 EMPTY) ->
    wp (if negb (List.last l1 EMPTY =? EMPTY) then sNext s' (List.last l1 EMPTY) (hdE l2)
        else d <- rd (aDeg s') i ;; sHead s' d (hdE l2)) Q).
  { intros s' la V' B1 B2. destruct Hl1 as [[-> El]|[Ne El]].
    - rewrite El. rewrite Z.eqb_refl. simpl negb. cbv iota. ard. rewrite Ed.
      eapply wHead; [exact V'|lia|]. intros s2 V2. apply (HQ s2 (vNext v) la (fup (vHead v) d (hdE l2))); [exact V2|].
      apply St; auto; [congruence| |].
      + intros; apply fup_ne; auto.
      + rewrite fup_eq. reflexivity.
    - destruct (Z.eqb_spec (List.last l1 EMPTY) EMPTY) as [X|_]; [rewrite X in El; unfold EMPTY in El; lia|]. simpl negb. cbv iota.
      eapply wNext; [exact V'|lia|]. intros s2 V2. apply (HQ s2 (fup (vNext v) (List.last l1 EMPTY) (hdE l2)) la (vHead v)); [exact V2|].
      apply St; auto.
      + intros x [X|X]; [apply fup_ne; auto|congruence].
      + intros _. apply fup_eq.
      + rewrite (hl_head _ _ _ _ H d Hd), E. destruct l1; [congruence|reflexivity]. }
  destruct Hl2 as [[-> El]|[Ne El]].
  - rewrite El. rewrite Z.eqb_refl. simpl negb. cbv iota. wb. wok. apply (Fin s (vLast v)); auto; [rewrite <- Vid; auto|congruence].
  - destruct (Z.eqb_spec (hdE l2) EMPTY) as [X|_]; [rewrite X in El; unfold EMPTY in El; lia|]. simpl negb. cbv iota. wb.
    eapply wLast; [exact V|lia|]. intros s1 V1. apply (Fin s1 (fup (vLast v) (hdE l2) (List.last l1 EMPTY))); auto.
    + intros x [X|X]; [apply fup_ne; auto|congruence].
    + intros _. apply fup_eq.
Qed.

Lemma EMPTY_val : EMPTY = -1. Proof. reflexivity. Qed.
Lemma FLIP_val x : FLIP x = - x - 2. Proof. reflexivity. Qed.
Lemma FLIP_FLIP x : FLIP (FLIP x) = x. Proof. unfold FLIP. lia. Qed.
Lemma FLIP_EMPTY : FLIP EMPTY = EMPTY. Proof. reflexivity. Qed.

Lemma hdE_cases l : (forall x, In x l -> 0 <= x < n) -> l = [] /\ hdE l = EMPTY \/ exists x r, l = x :: r /\ hdE l = x /\ 0 <= x < n.
Proof. intros H. destruct l as [|x r]; [auto|]. right. exists x, r. split; auto. split; auto. apply H. left; auto. Qed.

(** Putting i at the head of degree list d. *)
Lemma HL_cons v v' dl hb d i : HL n v dl hb -> 0 <= d < n -> 0 <= i < n -> hb d = [] -> (forall d', ~ In i (dl d') /\ ~ In i (hb d')) ->
  vHead v' d = i -> (forall d', d' <> d -> vHead v' d' = vHead v d') ->
  vNext v' i = hdE (dl d) -> (forall x, x <> i -> vNext v' x = vNext v x) ->
  vLast v' i = EMPTY -> (forall x r, dl d = x :: r -> vLast v' x = i) ->
  (forall x, x <> i -> x <> hdE (dl d) -> vLast v' x = vLast v x) ->
  HL n v' (lset dl d (i :: dl d)) hb.
Proof.
  intros H Hd Hi Hb Fr E1 E2 E3 E4 E5 E6 E7.
  assert (Out : forall d' x, d' <> d -> In x (dl d') \/ In x (hb d') -> ~ In x (dl d)).
  { intros d' x Ne Hx Hx'. apply Ne. apply (hl_one _ _ _ _ H d' d x); auto. }
  assert (Ni : forall d' x, In x (dl d') \/ In x (hb d') -> x <> i).
  { intros d' x Hx ->. destruct (Fr d'); tauto. }
  assert (Hm : forall d' x, d' <> d -> In x (dl d') -> x <> hdE (dl d)).
  { intros d' x Ne Hx ->. destruct (dl d) as [|y r] eqn:E; simpl in Hx.
    - pose proof (hl_rng _ _ _ _ H d' EMPTY (or_introl Hx)). rewrite EMPTY_val in *. lia.
    - apply (Out d' y Ne (or_introl Hx)). left; auto. }
  constructor.
  - intros d' Hd'. destruct (Z.eq_dec d' d) as [->|Ne]; [rewrite lset_eq; auto|]. rewrite lset_ne, E2 by auto. apply H; auto.
  - intros d' Hd'. destruct (Z.eq_dec d' d) as [->|Ne].
    + rewrite lset_eq. rewrite Hb. simpl. split; auto. split; auto.
      pose proof (hl_dl _ _ _ _ H d Hd) as C. pose proof (hl_nd _ _ _ _ H d) as ND. rewrite Hb in C, ND. rewrite app_nil_r in ND.
      assert (Nx : forall x, In x (dl d) -> x <> i) by eauto.
      destruct (dl d) as [|y r] eqn:E; [exact I|]. simpl in C |- *. destruct C as [C1 [C2 C3]].
      split; [eapply E6; eauto|]. split; [rewrite E4; auto; apply Nx; left; auto|].
      apply (dch_frame (vNext v) (vLast v)); auto. intros x Hx. split; [apply E4, Nx; right; auto|]. apply E7; [apply Nx; right; auto|].
      simpl. intros ->. inversion ND; auto.
    + rewrite lset_ne by auto. apply (dch_frame (vNext v) (vLast v)); [|apply H; auto]. intros x Hx. split; [apply E4; eauto|].
      apply E7; [eauto|]. apply (Hm d'); auto.
  - intros d' Hd'. apply (bch_frame (vNext v)); [|apply H; auto]. intros x Hx. apply E4. eauto.
  - intros d' x Hx. destruct (Z.eq_dec d' d) as [->|Ne].
    + rewrite lset_eq in Hx. simpl in Hx. destruct Hx as [[->|Hx]|Hx]; auto; apply (hl_rng _ _ _ _ H d x); auto.
    + rewrite lset_ne in Hx by auto. apply (hl_rng _ _ _ _ H d' x); auto.
  - intros d'. destruct (Z.eq_dec d' d) as [->|Ne]; [|rewrite lset_ne by auto; apply H]. rewrite lset_eq. simpl.
    constructor; [|apply H]. rewrite in_app_iff. destruct (Fr d). tauto.
  - assert (K : forall d1 x, In x (lset dl d (i :: dl d) d1) \/ In x (hb d1) -> (x = i /\ d1 = d) \/ (x <> i /\ (In x (dl d1) \/ In x (hb d1)))).
    { intros d1 x Hx. destruct (Z.eq_dec d1 d) as [->|Ne]; [rewrite lset_eq in Hx|rewrite lset_ne in Hx by auto; right; split; eauto].
      simpl in Hx. destruct Hx as [[->|Hx]|Hx]; auto; right; split; eauto. }
    intros d1 d2 x H1 H2. destruct (K _ _ H1) as [[? ?]|[? ?]]; destruct (K _ _ H2) as [[? ?]|[? ?]]; try congruence.
    apply (hl_one _ _ _ _ H d1 d2 x); auto.
Qed.

(** Putting i at the head of hash bucket h. *)
Lemma HL_hash v v' dl hb h i : HL n v dl hb -> 0 <= h < n -> 0 <= i < n -> (forall d', ~ In i (dl d') /\ ~ In i (hb d')) ->
  (dl h = [] -> vHead v' h = FLIP i) -> (dl h <> [] -> vHead v' h = vHead v h) -> (forall d', d' <> h -> vHead v' d' = vHead v d') ->
  vNext v' i = hdE (hb h) -> (forall x, x <> i -> vNext v' x = vNext v x) ->
  (forall x r, dl h = x :: r -> vLast v' x = i) ->
  (forall x, x <> i -> x <> hdE (dl h) -> vLast v' x = vLast v x) ->
  HL n v' dl (lset hb h (i :: hb h)).
Proof.
  intros H Hd Hi Fr E1 E1' E2 E3 E4 E6 E7.
  assert (Out : forall d' x, d' <> h -> In x (dl d') \/ In x (hb d') -> ~ In x (dl h)).
  { intros d' x Ne Hx Hx'. apply Ne. apply (hl_one _ _ _ _ H d' h x); auto. }
  assert (Ni : forall d' x, In x (dl d') \/ In x (hb d') -> x <> i).
  { intros d' x Hx ->. destruct (Fr d'); tauto. }
  assert (Hm : forall d' x, d' <> h -> In x (dl d') -> x <> hdE (dl h)).
  { intros d' x Ne Hx ->. destruct (dl h) as [|y r] eqn:E; simpl in Hx.
    - pose proof (hl_rng _ _ _ _ H d' EMPTY (or_introl Hx)). rewrite EMPTY_val in *. lia.
    - apply (Out d' y Ne (or_introl Hx)). left; auto. }
  constructor.
  - intros d' Hd'. destruct (Z.eq_dec d' h) as [->|Ne].
    + rewrite lset_eq. pose proof (hl_head _ _ _ _ H h Hd) as X. destruct (dl h) as [|y r]; [simpl; auto|]. rewrite E1'; auto. discriminate.
    + rewrite lset_ne, E2 by auto. apply H; auto.
  - intros d' Hd'. pose proof (hl_dl _ _ _ _ H d' Hd') as C. pose proof (hl_nd _ _ _ _ H d') as ND. apply NoDup_app_remove_r in ND.
    destruct (Z.eq_dec d' h) as [->|Ne].
    + rewrite lset_eq. assert (Nx : forall x, In x (dl h) -> x <> i) by eauto.
      destruct (dl h) as [|y r] eqn:E; [exact I|]. simpl in C |- *. destruct C as [C1 [C2 C3]].
      split; [eapply E6; eauto|]. split; [rewrite E4; auto; apply Nx; left; auto|].
      apply (dch_frame (vNext v) (vLast v)); auto. intros x Hx. split; [apply E4, Nx; right; auto|]. apply E7; [apply Nx; right; auto|].
      simpl. intros ->. inversion ND; auto.
    + rewrite lset_ne by auto. apply (dch_frame (vNext v) (vLast v)); auto. intros x Hx. split; [apply E4; eauto|].
      apply E7; [eauto|]. apply (Hm d'); auto.
  - intros d' Hd'. assert (bch (vNext v') (hb d') EMPTY).
    { apply (bch_frame (vNext v)); [|apply H; auto]. intros x Hx. apply E4. eauto. }
    destruct (Z.eq_dec d' h) as [->|Ne]; [rewrite lset_eq; simpl; auto|]. rewrite lset_ne; auto.
  - intros d' x Hx. destruct (Z.eq_dec d' h) as [->|Ne].
    + rewrite lset_eq in Hx. simpl in Hx. destruct Hx as [Hx|[->|Hx]]; auto; apply (hl_rng _ _ _ _ H h x); auto.
    + rewrite lset_ne in Hx by auto. apply (hl_rng _ _ _ _ H d' x); auto.
  - intros d'. destruct (Z.eq_dec d' h) as [->|Ne]; [|rewrite lset_ne by auto; apply H]. rewrite lset_eq.
    pose proof (hl_nd _ _ _ _ H h) as ND. destruct (Fr h) as [F1 F2]. apply NoDup_app_iff in ND. apply NoDup_app_iff.
    destruct ND as [A [B C]]. split; auto. split; [constructor; auto|]. simpl. intros x X [->|Y]; [auto|eauto].
  - assert (K : forall d1 x, In x (dl d1) \/ In x (lset hb h (i :: hb h) d1) -> (x = i /\ d1 = h) \/ (x <> i /\ (In x (dl d1) \/ In x (hb d1)))).
    { intros d1 x Hx. destruct (Z.eq_dec d1 h) as [->|Ne]; [rewrite lset_eq in Hx|rewrite lset_ne in Hx by auto; right; split; eauto].
      simpl in Hx. destruct Hx as [Hx|[->|Hx]]; auto; right; split; eauto. }
    intros d1 d2 x H1 H2. destruct (K _ _ H1) as [[? ?]|[? ?]]; destruct (K _ _ H2) as [[? ?]|[? ?]]; try congruence.
    apply (hl_one _ _ _ _ H d1 d2 x); auto.
Qed.

(** Emptying hash bucket h. *)
Lemma HL_unhash v v' dl hb h : HL n v dl hb -> 0 <= h < n ->
  (dl h = [] -> vHead v' h = EMPTY) -> (dl h <> [] -> vHead v' h = vHead v h) -> (forall d', d' <> h -> vHead v' d' = vHead v d') ->
  (forall x, vNext v' x = vNext v x) ->
  (forall x r, dl h = x :: r -> vLast v' x = EMPTY) -> (forall x, x <> hdE (dl h) -> vLast v' x = vLast v x) ->
  HL n v' dl (lset hb h []).
Proof.
  intros H Hd E1 E1' E2 E4 E6 E7.
  assert (Hm : forall d' x, d' <> h -> In x (dl d') -> x <> hdE (dl h)).
  { intros d' x Ne Hx ->. destruct (dl h) as [|y r] eqn:E; simpl in Hx.
    - pose proof (hl_rng _ _ _ _ H d' EMPTY (or_introl Hx)). rewrite EMPTY_val in *. lia.
    - apply Ne. apply (hl_one _ _ _ _ H d' h y); auto. left. rewrite E. left; auto. }
  assert (K : forall d1 x, In x (dl d1) \/ In x (lset hb h [] d1) -> In x (dl d1) \/ In x (hb d1)).
  { intros d1 x Hx. destruct (Z.eq_dec d1 h) as [->|Ne]; [rewrite lset_eq in Hx; simpl in Hx; tauto|rewrite lset_ne in Hx; auto]. }
  constructor.
  - intros d' Hd'. destruct (Z.eq_dec d' h) as [->|Ne].
    + rewrite lset_eq. pose proof (hl_head _ _ _ _ H h Hd) as X. destruct (dl h) as [|y r]; [simpl; auto|]. rewrite E1'; auto. discriminate.
    + rewrite lset_ne, E2 by auto. apply H; auto.
  - intros d' Hd'. pose proof (hl_dl _ _ _ _ H d' Hd') as C. pose proof (hl_nd _ _ _ _ H d') as ND. apply NoDup_app_remove_r in ND.
    destruct (Z.eq_dec d' h) as [->|Ne].
    + rewrite lset_eq. destruct (dl h) as [|y r] eqn:E; [exact I|]. simpl in C |- *. destruct C as [C1 [C2 C3]].
      split; [eapply E6; eauto|]. split; [rewrite E4; auto|].
      apply (dch_frame (vNext v) (vLast v)); auto. intros x Hx. split; [apply E4|]. apply E7.
      simpl. intros ->. inversion ND; auto.
    + rewrite lset_ne by auto. apply (dch_frame (vNext v) (vLast v)); auto. intros x Hx. split; [apply E4; eauto|].
      apply E7. apply (Hm d'); auto.
  - intros d' Hd'. destruct (Z.eq_dec d' h) as [->|Ne]; [rewrite lset_eq; simpl; auto|]. rewrite lset_ne by auto.
    apply (bch_frame (vNext v)); [|apply H; auto]. intros x Hx. apply E4.
  - intros d' x Hx. apply (hl_rng _ _ _ _ H d' x). auto.
  - intros d'. destruct (Z.eq_dec d' h) as [->|Ne]; [|rewrite lset_ne by auto; apply H]. rewrite lset_eq, app_nil_r.
    pose proof (hl_nd _ _ _ _ H h) as ND. apply NoDup_app_remove_r in ND. auto.
  - intros d1 d2 x H1 H2. apply (hl_one _ _ _ _ H d1 d2 x); auto.
Qed.

(** The pivot search. *)
Lemma find_pivot_ok s v dl (Q : Z * ast -> Prop) : Vw s v -> HL n v dl (fun _ => []) ->
  0 <= vmd v -> (forall d x, In x (dl d) -> vmd v <= d < n) -> (exists d x, In x (dl d)) ->
  (forall me r d s' la hd', let v' := uHead (uLast (umd v d) la) hd' in
     vmd v <= d < n -> dl d = me :: r -> (forall d', d' < d -> dl d' = []) -> Vw s' v' -> HL n v' (lset dl d r) (fun _ => []) -> Q (me, s')) ->
  wp (find_pivot n s) Q.
Proof.
  intros V H H0 Hmd [d0 [x0 Hx0]] HQ. unfold find_pivot. wb.
  pose proof (Hmd _ _ Hx0) as Hd0.
  apply (wp_while (fun '(me, deg, stop) => vmd v <= deg < n /\ (forall d', d' < deg -> dl d' = []) /\
       (stop = true -> exists r, dl deg = me :: r)) (fun '(me, deg, stop) => if stop : bool then 0 else n - deg)).
  - split; [rewrite (V_md _ _ _ _ V); lia|]. split; [|discriminate]. intros d' Hd'. rewrite (V_md _ _ _ _ V) in Hd'.
    destruct (dl d') as [|y r] eqn:E; auto. exfalso. pose proof (Hmd d' y). rewrite E in H1. specialize (H1 (or_introl eq_refl)). lia.
  - rewrite (V_md _ _ _ _ V). unfold fuel. lia.
  - intros [[me deg] stop] [Hr [He Hs]]. split; [destruct stop; lia|]. wok. destruct stop; simpl.
    + destruct (Hs eq_refl) as [r E]. wok. 
      assert (Rg : forall x, In x (me :: r) -> 0 <= x < n).
      { intros x Hx. apply (hl_rng _ _ _ _ H deg). left. rewrite E. auto. }
      pose proof (Rg me (or_introl eq_refl)) as Hme.
      pose proof (hl_dl _ _ _ _ H deg ltac:(lia)) as C. rewrite E in C. simpl in C. destruct C as [C1 [C2 C3]].
      assert (ND : NoDup (me :: r)). { rewrite <- E. pose proof (hl_nd _ _ _ _ H deg) as N. rewrite app_nil_r in N. auto. }
      assert (Fin : forall s' la, Vw s' (uLast (umd v deg) la) -> (forall x, x <> hdE r \/ r = [] -> la x = vLast v x) ->
          (r <> [] -> la (hdE r) = EMPTY) -> wp (s <- sHead s' deg (hdE r) ;; Ok (me, s)) Q).
      { intros s' la V' B1 B2. wb. eapply wHead; [exact V'|lia|]. intros s2 V2. wok.
        apply (HQ me r deg s2 la (fup (vHead v) deg (hdE r))); auto.
        apply (HL_set v); auto; try lia.
        - rewrite E. intros x Hx. right; auto.
        - inversion ND; auto.
        - intros d' _ Ne. vs. apply fup_ne; auto.
        - intros x Hx. vs. split; auto. apply B1. destruct r as [|z t]; [auto|]. left. simpl. intros ->. apply Hx. rewrite E. right; left; auto.
        - vs. rewrite fup_eq. destruct r; reflexivity.
        - vs. destruct r as [|z t]; [exact I|]. simpl in *. destruct C3 as [C4 [C5 C6]]. split; [apply B2; discriminate|]. split; auto.
          apply (dch_frame (vNext v) (vLast v)); auto. intros x Hx. split; auto. apply B1. left. intros ->. inversion ND; subst. inversion H4; auto. }
      pose proof (Smd _ _ _ _ deg V) as V1. ard. rewrite C2.
      destruct (hdE_cases r) as [[-> Er]|[y [t [-> [Er Hy]]]]]; [intros; apply Rg; right; auto| |].
      * rewrite Er. rewrite Z.eqb_refl. simpl negb. cbv iota. wb. wok. change EMPTY with (hdE []). apply (Fin _ (vLast v)); auto; try congruence.
      * simpl hd. destruct (Z.eqb_spec y EMPTY) as [X|_]; [rewrite EMPTY_val in X; lia|]. simpl negb. cbv iota. wb.
        eapply wLast; [exact V1|lia|]. intros s1 V2. apply (Fin s1 (fup (vLast v) y EMPTY)); auto.
        { intros x [X|X]; [apply fup_ne; auto|discriminate]. }
        { intros _. apply fup_eq. }
    + destruct (Z.ltb_spec deg n) as [_|X]; [|lia]. cbv iota. ard. rewrite (hl_head _ _ _ _ H deg) by lia.
      destruct (dl deg) as [|y r] eqn:E.
      * cbn [hd]. rewrite FLIP_EMPTY. simpl negb. cbv iota. wok. split; [|lia]. split; [|split; [|discriminate]].
        { split; [lia|]. destruct (Z.eq_dec d0 deg) as [->|Ne]; [rewrite E in Hx0; inversion Hx0|].
          destruct (Z.lt_ge_cases d0 deg) as [X|X]; [rewrite (He d0 X) in Hx0; inversion Hx0|]. lia. }
        { intros d' Hd'. destruct (Z.eq_dec d' deg) as [->|Ne]; auto. apply He. lia. }
      * assert (Hy : 0 <= y < n). { apply (hl_rng _ _ _ _ H deg). left. rewrite E. left; auto. }
        destruct (Z.eqb_spec y EMPTY) as [X|_]; [rewrite EMPTY_val in X; lia|]. simpl negb. cbv iota. wok. split; [|lia].
        split; [lia|]. split; auto. intros _. rewrite E. exists r. reflexivity.
Qed.

(** Putting a variable at the head of a degree list. *)
Lemma link_ok s v dl d i (Q : ast -> Prop) : Vw s v -> HL n v dl (fun _ => []) -> 0 <= d < n -> 0 <= i < n ->
  (forall d', ~ In i (dl d')) -> vLast v i = EMPTY ->
  (forall s' nx la hd', let v' := uHead (uNext (uLast v la) nx) hd' in
     (forall x, ~ In x (dl d) -> la x = vLast v x) ->
     Vw s' v' -> HL n v' (lset dl d (i :: dl d)) (fun _ => []) -> Q s') ->
  wp (link s d i) Q.
Proof.
  intros V H Hd Hi Fr El HQ. unfold link. ard. rewrite (hl_head _ _ _ _ H d Hd).
  assert (Fin : forall s' la, Vw s' (uLast v la) -> (forall x, x <> hdE (dl d) \/ dl d = [] -> la x = vLast v x) ->
    (forall x r, dl d = x :: r -> la x = i) -> wp (s <- sNext s' i (hdE (dl d)) ;; sHead s d i) Q).
  { intros s' la V' B1 B2. aw s1 V1. eapply wHead; [exact V1|lia|]. intros s2 V2.
    assert (Hin : forall x, ~ In x (dl d) -> la x = vLast v x).
    { intros x Hx. apply B1. destruct (dl d) as [|y r]; [auto|]. left. simpl. intros ->. apply Hx. left; auto. }
    eapply HQ; [|exact V2|]; [exact Hin|].
    apply (HL_cons v); auto; vs; intros; try (rewrite fup_ne by auto); try rewrite fup_eq; auto.
    all: try (rewrite Hin; auto; fail). all: try (eapply B2; eauto; fail). }
  destruct (dl d) as [|y r] eqn:E.
  - cbn [hd]. rewrite FLIP_EMPTY. rewrite Z.eqb_refl. simpl negb. cbv iota. wb. wok. apply (Fin _ (vLast v)); auto; try discriminate.
    replace (uLast v (vLast v)) with v by (destruct v; reflexivity). auto.
  - assert (Hy : 0 <= y < n). { apply (hl_rng _ _ _ _ H d). left. rewrite E. left; auto. }
    destruct (Z.eqb_spec y EMPTY) as [X|_]; [rewrite EMPTY_val in X; lia|]. simpl negb. cbv iota. wb.
    eapply wLast; [exact V|lia|]. intros s1 V1. apply (Fin s1 (fup (vLast v) y i)); auto.
    + simpl. intros x [X|X]; [apply fup_ne; auto|discriminate].
    + intros x r' X. injection X as <- _. apply fup_eq.
Qed.
End Ops.
